(** Local names do not matter: C105.

    [alpha_program], [same_complaint], [grounds_alike]: SpecAlpha.v; [outline], [cells]: SpecOutline.v; [unplaced] removes
    the positions (SpecPlace.v). *)
From Verif Require Import Base F64 Token Ast Scanner Parser Resolver Driver Segment SpecPlace SpecOutline SpecAlpha Alpha AlphaText AlphaLaws
  SpecResolve ResolveStep ResolveFinal TestsParser P_Errors P_Parser P_Driver P_Resolver DriverFacts.
Import SpecOutline.
Local Open Scope string_scope.
Local Open Scope list_scope.

(** ** C105 *)
(** Programs that differ in local names only get the same slots, or the same complaints at the same places. *)
Theorem C105_resolve : forall l l', alpha_program l l' ->
  match resolve l, resolve l' with
  | Done (Ok a), Done (Ok a') => flat_map cells a = flat_map cells a'
  | Done (Err e), Done (Err e') => Forall2 same_complaint e e'
  | Panicked w, Panicked w' => w = w'
  | _, _ => False
  end.
Proof. exact alpha_resolve. Qed.
Print Assumptions C105_resolve.
(** ... at any point of a session, wherever the names are, and the session goes on in the same way. *)
Theorem C105_session : forall h s l l', history h s -> alpha_program (map unplaced l) (map unplaced l') ->
  grounds_alike (resolver_resolve l s) (resolver_resolve l' s).
Proof. exact alpha_history. Qed.
Print Assumptions C105_session.
Theorem C105_files : forall U oc F name a b l l', parse U oc a = Done (Ok l) -> parse U oc b = Done (Ok l') ->
  alpha_program (map unplaced l) (map unplaced l') ->
  p_end (main_file U oc F name (Contents a)) = p_end (main_file U oc F name (Contents b)).
Proof. exact alpha_files. Qed.
Print Assumptions C105_files.
(** The relation is an equivalence. *)
Theorem C105_equivalence : (forall l, alpha_program l l) /\ (forall l l', alpha_program l l' -> alpha_program l' l) /\
  (forall l l' l'', alpha_program l l' -> alpha_program l' l'' -> alpha_program l l'').
Proof. exact alpha_equivalence. Qed.
Print Assumptions C105_equivalence.

Ltac mean := cbn [meant]; first
  [ reflexivity
  | left; cbn; solve [auto 10]
  | right; refine (conj _ (conj _ _)); [cbn; intuition discriminate | cbn; intuition discriminate | mean] ].
Ltac introducing := first
  [ apply in_global
  | apply in_again; cbn; solve [auto 10]
  | apply in_local; cbn; intuition discriminate ].
Ltac introducing_all := first [apply ia_nil | eapply ia_cons; [introducing | cbn [app]; introducing_all]].
Ltac alike_one := first
  [ apply al_reads; [mean | split; intros X; (discriminate X || reflexivity)]
  | apply al_writes; mean
  | apply al_supers; mean
  | apply al_returns
  | apply al_declares; introducing
  | apply al_defines; introducing
  | eapply al_block; alike_all
  | apply al_function; alike_function
  | eapply al_class; [introducing | alike_methods]
  | eapply al_subclass; [introducing | alike_all | alike_methods] ]
with alike_all := cbn [app]; first [apply al_nil | eapply al_cons; [alike_one | alike_all]]
with alike_function := eapply al_fun; [introducing_all | alike_all]
with alike_methods := first [apply al_no_method | apply al_method; [alike_function | alike_methods]].
Ltac alike_program := cbv [alpha_program]; vm_compute; repeat first [apply Forall2_nil | apply Forall2_cons]; alike_all.

(** [x], [total] and [e] of the one program are [a1], [sum] and [a] of the other; the last hides the global [a] where it
    is not read. *)
Definition one_way : list string :=
  ["var a = 1"; "class A < B"; "  go(x)"; "    var total = a + x"; "    if (x)"; "      var e = total"; "      total = e + super.go(e)";
   "    return total"].
Definition other_way : list string :=
  ["var a = 1"; "class A < B"; "  go(a1)"; "    var sum = a + a1"; "    if (a1)"; "      var a = sum"; "      sum = a + super.go(a)";
   "    return sum"].
Example C105_example : alpha_program (map unplaced (tree_of one_way)) (map unplaced (tree_of other_way)) /\
  (exists r r' s, resolver_resolve (tree_of one_way) fresh = Done (Ok r, s) /\
    resolver_resolve (tree_of other_way) fresh = Done (Ok r', s) /\ flat_map cells r = flat_map cells r' /\
    length (flat_map cells r) = 13) /\
  tree_of one_way <> tree_of other_way.
Proof.
  refine (conj _ (conj _ _)).
  - alike_program.
  - do 3 eexists. repeat (refine (conj _ _); [vm_compute; reflexivity|]). vm_compute. reflexivity.
  - vm_compute. discriminate.
Qed.
(** Rejected for the same reasons. *)
Definition wrong_way : list string := ["fun f(x)"; "  var y = y"; "  print this"; "fun g(x, y)"; "  return this"].
Definition wrong_too : list string := ["fun f(u)"; "  var v = v"; "  print this"; "fun g(a, b)"; "  return this"].
Example C105_example_rejected : alpha_program (tree_of wrong_way) (tree_of wrong_too) /\
  exists c d c' d', resolve (tree_of wrong_way) = Done (Err [c; d]) /\ resolve (tree_of wrong_too) = Done (Err [c'; d']) /\
    same_complaint c c' /\ c_token c = Some "y" /\ c_token c' = Some "v" /\ d = d'.
Proof.
  refine (conj _ _).
  - alike_program.
  - do 4 eexists. repeat (refine (conj _ _); [vm_compute; reflexivity|]). refine (conj _ _); [split; vm_compute; reflexivity|].
    repeat (refine (conj _ _); [vm_compute; reflexivity|]). vm_compute. reflexivity.
Qed.
Example C105_example_files :
  p_end (main_file sample_unicode true sample_formats "x" (Contents (source one_way))) =
  p_end (main_file sample_unicode true sample_formats "x" (Contents (source other_way))).
Proof.
  apply (C105_files _ _ _ _ _ _ (tree_of one_way) (tree_of other_way)); [vm_compute; reflexivity | vm_compute; reflexivity |].
  exact (proj1 C105_example).
Qed.

(** Names cannot be chosen freely: a new name may capture another. *)
Fixpoint nameless (e : event) : event :=
  match e with
  | Reads _ l => Reads "" l
  | Writes _ l => Writes "" l
  | Supers l => Supers l
  | Returns b l => Returns b l
  | Declares _ l => Declares "" l
  | Defines _ l => Defines "" l
  | InBlock es => InBlock (map nameless es)
  | InFunction ps es => InFunction (map (fun p => ("", snd p)) ps) (map nameless es)
  | InClass _ l s ms => InClass "" l (match s with Some (o, es) => Some (o, map nameless es) | None => None end)
      (map (fun m => match m with (i, ps, es) => (i, map (fun p => ("", snd p)) ps, map nameless es) end) ms)
  end.
Definition free_lines : list string := ["fun f(a)"; "  if (a)"; "    var b = 1"; "    print a + b"].
Definition caught_lines : list string := ["fun f(a)"; "  if (a)"; "    var a = 1"; "    print a + a"].
Theorem C105_any_names_refuted : ~ forall l l' r r', map (map nameless) (map outline l) = map (map nameless) (map outline l') ->
  resolve l = Done (Ok r) -> resolve l' = Done (Ok r') -> flat_map cells r = flat_map cells r'.
Proof.
  intros H.
  assert (E : exists r, resolve (tree_of free_lines) = Done (Ok r)) by (eexists; vm_compute; reflexivity).
  assert (E' : exists r, resolve (tree_of caught_lines) = Done (Ok r)) by (eexists; vm_compute; reflexivity).
  destruct E as (r & E), E' as (r' & E').
  assert (N : map (map nameless) (map outline (tree_of free_lines)) = map (map nameless) (map outline (tree_of caught_lines)))
    by (vm_compute; reflexivity).
  pose proof (H _ _ r r' N E E') as X. vm_compute in E, E'. injection E as <-. injection E' as <-. vm_compute in X. discriminate.
Qed.
Print Assumptions C105_any_names_refuted.
(** ... and this is why the two are not related. *)
Example C105_example_capture : ~ alpha_program (tree_of free_lines) (tree_of caught_lines).
Proof.
  intros A. pose proof (C105_resolve _ _ A) as H. vm_compute in H. discriminate.
Qed.

(** The converse fails: functions and classes get no slot in the tree, so the slots do not tell which name they define. *)
Definition first_f : list string := ["print f"; "fun f()"; "  print 1"; "print g"; "fun g()"; "  print 2"].
Definition first_g : list string := ["print f"; "fun g()"; "  print 1"; "print g"; "fun f()"; "  print 2"].
Theorem C105_slots_tell_all_refuted : ~ forall l l' r r' s, map (map nameless) (map outline l) = map (map nameless) (map outline l') ->
  resolver_resolve l fresh = Done (Ok r, s) -> resolver_resolve l' fresh = Done (Ok r', s) ->
  flat_map cells r = flat_map cells r' -> alpha_program l l'.
Proof.
  intros H.
  assert (A : alpha_program (tree_of first_f) (tree_of first_g)).
  { eapply H; [vm_compute; reflexivity | vm_compute; reflexivity | vm_compute; reflexivity | vm_compute; reflexivity]. }
  vm_compute in A. inversion A as [|st st' l l' _ A1]; subst. inversion A1 as [|st st' l l' B _]; subst.
  inversion B as [|E e e' E1 es es' E2 C _]; subst. inversion C as [| | | | |E0 x x' l0 E0' N| | | |]; subst. inversion N.
Qed.
Print Assumptions C105_slots_tell_all_refuted.
