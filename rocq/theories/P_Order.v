(** Programs can be put together, and their statements reordered: C104.

    [within_bounds], [order_free], [global_names]: SpecOrder.v. *)
From Verif Require Import Base F64 Token Ast Scanner Parser Resolver Driver Segment SpecResolve SpecOrder ResolveStep ResolveFinal Order
  SpecLayout SpecGrammar SpecConcat OrderText SpecLex SpecScan ScanFinal TestsParser P_Errors P_Parser P_Driver P_Resolver DriverFacts ConcatFinal.
From Coq Require Import Permutation.
Local Open Scope string_scope.
Local Open Scope list_scope.

(** ** C104 *)
(** Programs that are accepted on their own are accepted one after the other. *)
Theorem C104_together : forall ps, Forall (fun p => exists r, resolve p = Done (Ok r)) ps -> within_bounds (concat ps) ->
  exists r, resolve (concat ps) = Done (Ok r).
Proof. exact put_together. Qed.
Print Assumptions C104_together.
(** Statements can change places unless one reads its own name, known only from the others. *)
Theorem C104_any_order : forall l l', Permutation l l' -> within_bounds l -> Forall order_free l ->
  ((exists r, resolve l = Done (Ok r)) <-> exists r', resolve l' = Done (Ok r')).
Proof. exact any_order. Qed.
Print Assumptions C104_any_order.
(** The globals are then the same, in another order. *)
Theorem C104_globals : forall l l' r r' s s', Permutation l l' ->
  resolver_resolve l fresh = Done (Ok r, s) -> resolver_resolve l' fresh = Done (Ok r', s') ->
  table s = global_names l /\ table s' = global_names l' /\ Permutation (table s) (table s').
Proof. exact reordered_table. Qed.
Print Assumptions C104_globals.

Definition part_one : list stmt := tree_of ["class A < B"; "  go()"; "    return super.go() + k"].
Definition part_two : list stmt := tree_of ["fun f(a)"; "  return A(a, k)"].
Definition part_three : list stmt := tree_of ["var k = f(1)"; "class B"; "  go()"; "    return this"].
Ltac in_bounds := split; [vm_compute; repeat (constructor; [first [exact I | discriminate | intros X; discriminate X]|]); constructor
                         | vm_compute; discriminate].
Definition accepts (l : list stmt) : bool := match resolve l with Done (Ok _) => true | _ => false end.
Example C104_example :
  accepts part_one = true /\ accepts part_two = true /\ accepts part_three = true /\
  within_bounds (part_one ++ part_two ++ part_three) /\ Forall order_free (part_one ++ part_two ++ part_three) /\
  accepts (part_one ++ part_two ++ part_three) = true /\ accepts (rev (part_one ++ part_two ++ part_three)) = true /\
  global_names (part_one ++ part_two ++ part_three) = ["A"; "B"; "k"; "f"] /\
  global_names (rev (part_one ++ part_two ++ part_three)) = ["B"; "k"; "f"; "A"].
Proof.
  repeat (refine (conj _ _); [vm_compute; reflexivity|]).
  refine (conj _ (conj _ _)); [in_bounds | |].
  - unfold order_free. vm_compute. repeat match goal with |- Forall _ _ => constructor | |- True => exact I | |- _ -> False => intros X; repeat (destruct X as [X|X]; [discriminate X|]); exact X end.
  - repeat (refine (conj _ _); [vm_compute; reflexivity|]). vm_compute. reflexivity.
Qed.
(** Files that run without errors do so when one is written after the other (under the conditions of C78). *)
Theorem C104_files : forall U oc F name a es ta la b es' lb, sane U -> valid_source a -> valid_source b ->
  lexes U a es -> whole_lines es -> lexes U b es' -> flush (source_lines es') ->
  scan_tokens U a = Done (Ok ta) -> parse U oc a = Done (Ok la) -> parse U oc b = Done (Ok lb) ->
  (forall tb, scan_tokens U b = Done (Ok tb) -> fresh_start tb) ->
  ~ ends_in_var la \/ ends_line ta -> within_bounds (la ++ lb) ->
  p_end (main_file U oc F name (Contents a)) = Exited 0 -> p_end (main_file U oc F name (Contents b)) = Exited 0 ->
  p_end (main_file U oc F name (Contents (a ++ b))) = Exited 0.
Proof. exact files_together. Qed.
Print Assumptions C104_files.
Definition file_a : list string := ["var n = f()"; "print n"].
Definition file_b : list string := ["fun f()"; "  return n"].
Definition exit_of (gs : list string) := p_end (main_file sample_unicode true sample_formats "x" (Contents gs)).
Example C104_example_files :
  exit_of (source file_a) = Exited 0 /\ exit_of (source file_b) = Exited 0 /\
  exit_of (source file_a ++ source file_b) = Exited 0.
Proof.
  assert (A : exit_of (source file_a) = Exited 0) by (vm_compute; reflexivity).
  assert (B : exit_of (source file_b) = Exited 0) by (vm_compute; reflexivity).
  assert (V : valid_source (source file_a)) by (apply check_valid; vm_compute; reflexivity).
  assert (V' : valid_source (source file_b)) by (apply check_valid; vm_compute; reflexivity).
  assert (T : exists t, scan_tokens sample_unicode (source file_a) = Done (Ok t)) by (eexists; vm_compute; reflexivity).
  assert (Pa : parse sample_unicode true (source file_a) = Done (Ok (program_of file_a))) by (vm_compute; reflexivity).
  assert (Pb : parse sample_unicode true (source file_b) = Done (Ok (program_of file_b))) by (vm_compute; reflexivity).
  destruct T as (t & T). refine (conj A (conj B _)).
  apply (C104_files sample_unicode true sample_formats "x" _ (elements (lns file_a ++ s_nl)) t (program_of file_a) _
    (elements (lns file_b ++ s_nl)) (program_of file_b) sample_sane V V' (elements_lex _)); auto.
  - right. exists (removelast (elements (lns file_a ++ s_nl))). vm_compute. reflexivity.
  - apply elements_lex.
  - vm_compute. reflexivity.
  - intros tb X. apply fresh_by. vm_compute in X. injection X as <-. reflexivity.
  - left. intros (l & x & s & e & p & E). apply (f_equal (@rev _)) in E. rewrite rev_app_distr in E. vm_compute in E. discriminate.
  - in_bounds.
Qed.
(** Without the condition on initializers the order matters. *)
Theorem C104_every_order_refuted : ~ forall l l', Permutation l l' -> within_bounds l ->
  (exists r, resolve l = Done (Ok r)) -> exists r', resolve l' = Done (Ok r').
Proof.
  intros H. destruct (H (tree_of ["var a = 1"; "var a = a"]) (rev (tree_of ["var a = 1"; "var a = a"]))) as (r' & E).
  - apply Permutation_rev.
  - in_bounds.
  - eexists. vm_compute. reflexivity.
  - vm_compute in E. discriminate.
Qed.
Print Assumptions C104_every_order_refuted.
(** And an accepted program need not have parts that are accepted on their own. *)
Example C104_example_parts :
  accepts (tree_of ["var a = 1"; "var a = a"]) = true /\ accepts (tree_of ["var a = a"]) = false.
Proof. vm_compute. auto. Qed.
