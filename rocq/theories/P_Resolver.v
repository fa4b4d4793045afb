(** Properties of the resolver (src/resolver.rs), C35-C48.

    [history h s]: [s] is the state of a resolver made by [Resolver::new] after
    the calls of [Resolver::resolve] listed in [h], with their results.
    [program_nodes start l] are the nodes of the program [l], each with its
    static context (SpecResolve.v). *)
From Verif Require Import Base F64 Token Ast Scanner Parser Resolver Segment TestsParser
  SpecResolve ResolveFinal ResolveProps.

(** Examples run on source text. *)
Definition tree_of (l : list string) : list stmt :=
  match parse_src (lns l) with Done (Ok t) => t | _ => nil end.
Definition resolve_src (l : list string) : outcome (result (list stmt) parse_error) :=
  resolve (tree_of l).
Definition fresh : rstate := mkR [nil] NoFunction NoClass.
Definition messages (o : outcome (result (list stmt) parse_error)) : list string :=
  match o with Done (Err es) => map c_message es | _ => nil end.

(** ** C35 *)
Theorem C35_context_restored : forall h s, history h s ->
  exists g, s = mkR [g] NoFunction NoClass.
Proof.
  exact (fun h s H => match history_top h s H with ex_intro _ g (conj E _) => ex_intro _ g E end).
Qed.
Print Assumptions C35_context_restored.
Example C35_example :
  match resolver_resolve (tree_of ["class A < B"; "  init()"; "    return 1"]) fresh with
  | Done (Err [_], mkR [g] NoFunction NoClass) => map fst g = ["A"; "B"]
  | _ => False
  end.
Proof. vm_compute. reflexivity. Qed.

(** ** C36 *)
Theorem C36_only_slots_change : forall h s l l' s', history h s ->
  resolver_resolve l s = Done (Ok l', s') -> map erase l' = map erase l.
Proof.
  exact (fun h s l l' s' Hh H => proj1 (program_ok l s l' s' (history_top h s Hh) H)).
Qed.
Print Assumptions C36_only_slots_change.
Example C36_example :
  match resolve_src ["fun f(x)"; "  print x"] with
  | Done (Ok [SFun (NamedFun "f" (FunDef [_] [SPrint (EVariable "x" (VarLoc 0 0) _)] _ _))]) => True
  | _ => False
  end.
Proof. vm_compute. exact I. Qed.

(** ** C37 *)
Theorem C37_innermost_binding : forall h s l l' s', history h s ->
  resolver_resolve l s = Done (Ok l', s') ->
  Forall (addressed (table s')) (program_nodes start l').
Proof.
  exact (fun h s l l' s' Hh H =>
    proj2 (proj2 (proj2 (proj2 (proj2 (program_ok_start l s l' s' (history_top h s Hh) H)))))
      (table s') (ResolveStep.prefix_refl _ _)).
Qed.
Print Assumptions C37_innermost_binding.
Example C37_example :
  match resolve_src ["var a = 1"; "fun f(x)"; "  var y = a"; "  fun g(z)"; "    return z + y + x + later"] with
  | Done (Ok [_; SFun (NamedFun _ (FunDef _
      [SVar _ (SlotIndex 1) (EVariable "a" (VarLoc 1 0) _) _;
       SFun (NamedFun _ (FunDef _ [SReturn
         (EBinary (EBinary (EBinary (EVariable "z" (VarLoc 0 0) _) _ (EVariable "y" (VarLoc 1 1) _) _) _
            (EVariable "x" (VarLoc 1 0) _) _) _ (EVariable "later" (VarLoc 2 2) _) _) _] _ _))] _ _))]) => True
  | _ => False
  end.
Proof. vm_compute. exact I. Qed.

(** ** C38 *)
(** [extended l1 l2]: the same scopes, perhaps with more names in [l2];
    [small l]: at most 256 elements. *)
Theorem C38_distinct_slots : forall h s l l' s' c1 x v p1 c2 y p2, history h s ->
  resolver_resolve l s = Done (Ok l', s') ->
  In (c1, NExpr (EVariable x v p1)) (program_nodes start l') ->
  In (c2, NExpr (EVariable y v p2)) (program_nodes start l') ->
  extended (c_locals c1) (c_locals c2) ->
  small (table s') -> Forall small (c_locals c2) -> x = y.
Proof. exact distinct_slots. Qed.
Print Assumptions C38_distinct_slots.
Example C38_example :
  match resolve [SBlock (crowded 256)] with
  | Done (Ok [SBlock b]) =>
    match nth_error b 256, nth_error b 257 with
    | Some (SExpression (EVariable x (VarLoc 0 0) _)),
      Some (SExpression (EVariable y (VarLoc 0 255) _)) => x <> y
    | _, _ => False
    end
  | _ => False
  end.
Proof. vm_compute. discriminate. Qed.
(** With 257 names in a scope two names share a slot. *)
Theorem C38_slots_always_distinct_refuted :
  ~ (forall h s l l' s' c x v p1 y p2, history h s ->
       resolver_resolve l s = Done (Ok l', s') ->
       In (c, NExpr (EVariable x v p1)) (program_nodes start l') ->
       In (c, NExpr (EVariable y v p2)) (program_nodes start l') -> x = y).
Proof. exact aliasing_refuted. Qed.
Print Assumptions C38_slots_always_distinct_refuted.

(** ** C39 *)
(** One table of global slots serves all trees of the session... *)
Theorem C39_one_table : forall h s, history h s ->
  NoDup (table s) /\
  forall l l', In (l, Ok l') h -> Forall (addressed (table s)) (program_nodes start l').
Proof.
  exact (fun h s H => conj (table_nodup s (history_top h s H))
    (fun l l' I => one_table h s H l l' (table s) I (ResolveStep.prefix_refl _ _))).
Qed.
Print Assumptions C39_one_table.
(** ... and it only grows, also when a call fails. *)
Theorem C39_table_grows : forall h s l r s', history h s ->
  resolver_resolve l s = Done (r, s') -> exists new, table s' = table s ++ new.
Proof. exact (fun h s l r s' Hh H => table_grows l s r s' (history_top h s Hh) H). Qed.
Print Assumptions C39_table_grows.
(** What a successful call adds: the new global names, in order of mention. *)
Theorem C39_table_after : forall h s l l' s', history h s ->
  resolver_resolve l s = Done (Ok l', s') ->
  table s' = add_all (table s) (flat_map mention (program_nodes (context s) l)).
Proof.
  exact (fun h s l l' s' Hh H =>
    proj1 (proj2 (proj2 (proj2 (program_ok l s l' s' (history_top h s Hh) H))))).
Qed.
Print Assumptions C39_table_after.
Example C39_example :
  match resolver_resolve (tree_of ["fun f()"; "  print later + a"]) fresh with
  | Done (Ok _, s1) =>
    table s1 = ["f"; "later"; "a"] /\
    match resolver_resolve (tree_of ["var b = b"]) s1 with
    | Done (Err _, s2) =>
      table s2 = ["f"; "later"; "a"; "b"] /\
      match resolver_resolve (tree_of ["var a = 1"; "print later"]) s2 with
      | Done (Ok [SVar _ (SlotIndex 2) _ _; SPrint (EVariable _ (VarLoc 0 1) _)], _) => True
      | _ => False
      end
    | _ => False
    end
  | _ => False
  end.
Proof. vm_compute. auto. Qed.

(** ** C40 *)
Theorem C40_returns_checked : forall h s l l' s', history h s ->
  resolver_resolve l s = Done (Ok l', s') -> Forall return_rule (program_nodes start l).
Proof.
  exact (fun h s l l' s' Hh H => proj1 (program_ok_start l s l' s' (history_top h s Hh) H)).
Qed.
Print Assumptions C40_returns_checked.
Theorem C40_return_errors : forall h s l es s' e, history h s ->
  resolver_resolve l s = Done (Err es, s') -> In e es ->
  c_message e = "Cannot return from top-level code." \/
  c_message e = "Cannot return a value from an initializer." ->
  Exists (fun cn => ~ return_rule cn) (program_nodes start l).
Proof.
  exact (fun h s l es s' e Hh H I M =>
    match M with
    | or_introl M => message_origin _ _ l s es s' e (history_top h s Hh) about_return_top
                       ResolveNodes.return_alike ltac:(discriminate) H I M
    | or_intror M => message_origin _ _ l s es s' e (history_top h s Hh) about_return_init
                       ResolveNodes.return_alike ltac:(discriminate) H I M
    end).
Qed.
Print Assumptions C40_return_errors.
Example C40_example :
  messages (resolve_src ["return 1"; "class A"; "  init()"; "    return 2"]) =
  ["Cannot return from top-level code."; "Cannot return a value from an initializer."] /\
  is_ok (resolve_src ["class A"; "  init()"; "    fun g()"; "      return 2"; "    return nil"]) = true.
Proof. split; vm_compute; reflexivity. Qed.

(** ** C41 *)
Theorem C41_this_and_super_checked : forall h s l l' s', history h s ->
  resolver_resolve l s = Done (Ok l', s') -> Forall this_rule (program_nodes start l).
Proof.
  exact (fun h s l l' s' Hh H => proj1 (proj2 (program_ok_start l s l' s' (history_top h s Hh) H))).
Qed.
Print Assumptions C41_this_and_super_checked.
Theorem C41_this_and_super_errors : forall h s l es s' e, history h s ->
  resolver_resolve l s = Done (Err es, s') -> In e es ->
  c_message e = "Cannot use 'this' outside of a class." \/
  c_message e = "Cannot use 'super' outside of a class." \/
  c_message e = "Cannot use 'super' in a class with no superclass." ->
  Exists (fun cn => ~ this_rule cn) (program_nodes start l).
Proof.
  exact (fun h s l es s' e Hh H I M =>
    match M with
    | or_introl M => message_origin _ _ l s es s' e (history_top h s Hh) about_this
                       ResolveNodes.this_alike ltac:(discriminate) H I M
    | or_intror (or_introl M) => message_origin _ _ l s es s' e (history_top h s Hh) about_super
                       ResolveNodes.this_alike ltac:(discriminate) H I M
    | or_intror (or_intror M) => message_origin _ _ l s es s' e (history_top h s Hh) about_super_class
                       ResolveNodes.this_alike ltac:(discriminate) H I M
    end).
Qed.
Print Assumptions C41_this_and_super_errors.
Example C41_example :
  messages (resolve_src ["print this"; "print super.a"; "class A"; "  f()"; "    super.f()"]) =
  ["Cannot use 'this' outside of a class."; "Cannot use 'super' outside of a class.";
   "Cannot use 'super' in a class with no superclass."] /\
  is_ok (resolve_src ["class A < B"; "  f()"; "    super.f(this)"]) = true.
Proof. split; vm_compute; reflexivity. Qed.

(** ** C42 *)
Theorem C42_no_local_redeclaration : forall h s l l' s', history h s ->
  resolver_resolve l s = Done (Ok l', s') -> Forall redeclaration_rule (program_nodes start l).
Proof.
  exact (fun h s l l' s' Hh H =>
    proj1 (proj2 (proj2 (program_ok_start l s l' s' (history_top h s Hh) H)))).
Qed.
Print Assumptions C42_no_local_redeclaration.
Theorem C42_redeclaration_errors : forall h s l es s' e, history h s ->
  resolver_resolve l s = Done (Err es, s') -> In e es ->
  c_message e = "Variable with this name already declared in this scope." ->
  Exists (fun cn => ~ redeclaration_rule cn) (program_nodes start l).
Proof.
  exact (fun h s l es s' e Hh H I M =>
    message_origin _ _ l s es s' e (history_top h s Hh) about_redeclaration
      ResolveNodes.redeclaration_alike ltac:(discriminate) H I M).
Qed.
Print Assumptions C42_redeclaration_errors.
(** Redeclared globals share their slot ([redeclaration_rule] and C48 allow
    them). *)
Theorem C42_global_redeclaration : forall h s l1 t1 l2 t2 x i1 e1 p1 i2 e2 p2, history h s ->
  In (l1, Ok t1) h -> In (l2, Ok t2) h ->
  In (SVar x i1 e1 p1) t1 -> In (SVar x i2 e2 p2) t2 -> i1 = i2.
Proof. exact session_redeclared. Qed.
Print Assumptions C42_global_redeclaration.
Example C42_example :
  messages (resolve_src ["fun f(a)"; "  var a = 1"]) =
  ["Variable with this name already declared in this scope."] /\
  match resolve_src ["var a = 1"; "var b = 2"; "var a = 3"] with
  | Done (Ok [SVar "a" i _ _; SVar "b" _ _ _; SVar "a" j _ _]) => i = j
  | _ => False
  end.
Proof. split; vm_compute; reflexivity. Qed.

(** ** C43 *)
Theorem C43_own_initializer : forall h s l l' s', history h s ->
  resolver_resolve l s = Done (Ok l', s') ->
  Forall initializer_rule (program_nodes (context s) l).
Proof.
  exact (fun h s l l' s' Hh H =>
    proj1 (proj2 (proj2 (proj2 (proj2 (program_ok_start l s l' s' (history_top h s Hh) H)))))).
Qed.
Print Assumptions C43_own_initializer.
(** The context of a call: nothing is known to a fresh resolver, and a
    successful call makes the names it declares known. *)
Theorem C43_context_at_start : forall s, resolver_new = Done s -> context s = start.
Proof. exact context_new. Qed.
Print Assumptions C43_context_at_start.
Theorem C43_context_after : forall h s l l' s' x, history h s ->
  resolver_resolve l s = Done (Ok l', s') ->
  (In x (c_globals (context s')) <-> In x (c_globals (context s)) \/ In x (flat_map declared l)) /\
  (In x (c_blocked (context s')) <-> In x (c_blocked (context s)) /\ ~ In x (flat_map declared l)).
Proof. exact (fun h s l l' s' x Hh H => context_after l s l' s' x (history_top h s Hh) H). Qed.
Print Assumptions C43_context_after.
(** A failed initializer makes a new global unreadable until a later call
    declares it. *)
Theorem C43_poisoned_global : forall h s x i e l c s1 l2 r s2, history h s ->
  ~ In x (c_globals (context s)) ->
  resolver_resolve [SVar x i e l] s = Done (Err [c], s1) ->
  c_message c <> "Too many local variables in function." ->
  resolver_resolve l2 s1 = Done (r, s2) -> ~ In x (flat_map declared l2) -> x <> "this" ->
  forall v p, resolver_resolve [SExpression (EVariable x v p)] s2 =
    Done (Err [cause_at p x "Cannot read local variable in its own initializer."], s2).
Proof. exact poisoned. Qed.
Print Assumptions C43_poisoned_global.
Theorem C43_failed_line_has_no_effect_refuted :
  ~ (forall h s l es s1 l2 t s2, history h s ->
       resolver_resolve l s = Done (Err es, s1) ->
       resolver_resolve l2 s = Done (Ok t, s2) ->
       exists t' s2', resolver_resolve l2 s1 = Done (Ok t', s2')).
Proof. exact failed_line_refuted. Qed.
Print Assumptions C43_failed_line_has_no_effect_refuted.
Example C43_example :
  messages (resolve_src ["var x = x"; "x"; "var x = 1"; "x"; "var x = x"]) =
  ["Cannot read local variable in its own initializer.";
   "Cannot read local variable in its own initializer."] /\
  messages (resolve_src ["fun f(a)"; "  var b = b"]) =
  ["Cannot read local variable in its own initializer."] /\
  is_ok (resolve [var "b" (EFunction (FunDef nil [SReturn (EVariable "b" var_placeholder here_loc) here_loc]
                              PlainFunction here_loc))]) = true.
Proof. repeat split; vm_compute; reflexivity. Qed.

(** ** C44 *)
Theorem C44_no_panic : forall h s l, history h s ->
  Forall (fun st => (nesting st <= 65534)%N) l ->
  exists r s', resolver_resolve l s = Done (r, s').
Proof. exact (fun h s l Hh => program_no_panic l s (history_top h s Hh)). Qed.
Print Assumptions C44_no_panic.
Theorem C44_accepted_nesting : forall h s l l' s', history h s ->
  resolver_resolve l s = Done (Ok l', s') ->
  Forall (fun st => (nesting st <= 65534)%N) l.
Proof. exact (fun h s l l' s' Hh => nesting_accepted l s l' s' (history_top h s Hh)). Qed.
Print Assumptions C44_accepted_nesting.
(** [nest n] is a block nested [n] deep in other blocks. *)
Theorem C44_nested_blocks_panic : forall n,
  (65534 < N.of_nat (S n))%N <-> exists w, resolve [nest n] = Panicked w.
Proof. exact nest_panics. Qed.
Print Assumptions C44_nested_blocks_panic.
Example C44_example : is_ok (resolve [nest 300]) = true.
Proof. vm_compute. reflexivity. Qed.

(** ** C45 *)
(** [separately s l rs s']: every statement of [l] is resolved in a call of
    its own, from [s] to [s'], with the results [rs]. *)
Theorem C45_statement_by_statement : forall l s r s',
  resolver_resolve l s = Done (r, s') <->
  exists rs, separately s l rs s' /\ r = verdict rs.
Proof. exact resolve_separately. Qed.
Print Assumptions C45_statement_by_statement.
(** Every cause is the error of one statement, for a rule that it breaks (or
    the table of globals is full). *)
Theorem C45_causes_are_justified : forall h s st e s', history h s ->
  resolver_resolve [st] s = Done (Err [e], s') ->
  Exists (blames e) (nodes (context s) st) \/
  (too_many (length (add_all (table s) (flat_map mention (nodes (context s) st)))) /\
   exists l x, e = cause_at l x "Too many local variables in function.").
Proof. exact (fun h s st e s' Hh => single_err st s e s' (history_top h s Hh)). Qed.
Print Assumptions C45_causes_are_justified.
Example C45_example :
  messages (resolve_src ["return 1"; "var a = 1"; "print this"; "print a"; "fun f(a, a)"; "  return nil"]) =
  ["Cannot return from top-level code."; "Cannot use 'this' outside of a class.";
   "Variable with this name already declared in this scope."].
Proof. vm_compute. reflexivity. Qed.

(** ** C46 *)
Theorem C46_in_pieces : forall a b s,
  resolver_resolve (a ++ b) s =
  olet x <- resolver_resolve a s ;;
  olet y <- resolver_resolve b (snd x) ;;
  Done (both (fst x) (fst y), snd y).
Proof. exact resolve_pieces. Qed.
Print Assumptions C46_in_pieces.
Example C46_example :
  match resolver_resolve (tree_of ["print a"; "var a = 1"]) fresh,
        resolver_resolve (tree_of ["print a"]) fresh with
  | Done (Ok [x; y], s), Done (Ok [x'], s1) =>
    x = x' /\
    match resolver_resolve (tree_of ["print 1"; "var a = 1"]) s1 with
    | Done (Ok [_; y'], s') => y = y' /\ s = s'
    | _ => False
    end
  | _, _ => False
  end.
Proof. vm_compute. auto. Qed.

(** ** C47 *)
Theorem C47_no_self_inheritance : forall h s l l' s', history h s ->
  resolver_resolve l s = Done (Ok l', s') -> Forall inheritance_rule (program_nodes start l).
Proof.
  exact (fun h s l l' s' Hh H =>
    proj1 (proj2 (proj2 (proj2 (program_ok_start l s l' s' (history_top h s Hh) H))))).
Qed.
Print Assumptions C47_no_self_inheritance.
Theorem C47_self_inheritance_errors : forall h s l es s' e, history h s ->
  resolver_resolve l s = Done (Err es, s') -> In e es ->
  c_message e = "A class cannot inherit from itself." ->
  Exists (fun cn => ~ inheritance_rule cn) (program_nodes start l).
Proof.
  exact (fun h s l es s' e Hh H I M =>
    message_origin _ _ l s es s' e (history_top h s Hh) about_inheritance
      ResolveNodes.inheritance_alike ltac:(discriminate) H I M).
Qed.
Print Assumptions C47_self_inheritance_errors.
Example C47_example :
  messages (resolve_src ["class A < A"; "  f()"; "    return nil"]) = ["A class cannot inherit from itself."] /\
  is_ok (resolve_src ["class A < B"; "  f()"; "    return nil"]) = true.
Proof. split; vm_compute; reflexivity. Qed.

(** ** C48 *)
(** Within the size limit of scopes, exactly the programs that obey the static
    rules are accepted. *)
Theorem C48_accepts_exactly : forall h s l, history h s ->
  Forall size_rule (program_nodes start l) ->
  (N.of_nat (length (add_all (table s) (flat_map mention (program_nodes start l)))) <= scope_limit)%N ->
  ((exists l' s', resolver_resolve l s = Done (Ok l', s')) <->
   Forall allowed (program_nodes (context s) l) /\
   Forall (fun st => (nesting st <= 65534)%N) l).
Proof. exact (fun h s l Hh => program_valid_iff l s (history_top h s Hh)). Qed.
Print Assumptions C48_accepts_exactly.
(** The slots are determined by the rules. *)
Theorem C48_unique : forall h s l l' s' t, history h s ->
  resolver_resolve l s = Done (Ok l', s') -> map erase t = map erase l ->
  Forall (addressed (table s')) (program_nodes start t) -> t = l'.
Proof. exact (fun h s l l' s' t Hh => addressed_unique l s l' s' t (history_top h s Hh)). Qed.
Print Assumptions C48_unique.
Example C48_example :
  is_ok (resolve_src ["class A < B"; "  init(n)"; "    this.n = n"; "    super.init()";
                      "  get()"; "    var m = this.n"; "    return m + k";
                      "var k = 2"; "for (var i = 0; i < k; i = i + 1)"; "  print A(i).get()"]) = true.
Proof. vm_compute. reflexivity. Qed.
