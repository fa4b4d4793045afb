(** What the resolver sees of a program: C102.

    [outline], [cells], [says_the_same]: SpecOutline.v; [unplaced] removes the positions (SpecPlace.v). *)
From Verif Require Import Base F64 Token Ast Scanner Parser Resolver Driver Segment SpecPlace SpecOutline Outline
  SpecLex SpecScan ScanFinal TestsParser P_Errors P_Parser P_Driver.
Local Open Scope string_scope.
Local Open Scope list_scope.

(** ** C102 *)
Theorem C102_resolve : forall l l', map outline l = map outline l' ->
  match resolve l, resolve l' with
  | Done (Ok a), Done (Ok a') => flat_map cells a = flat_map cells a'
  | Done (Err e), Done (Err e') => e = e'
  | Panicked w, Panicked w' => w = w'
  | _, _ => False
  end.
Proof. exact outline_resolve. Qed.
Print Assumptions C102_resolve.
Theorem C102_session : forall l l' s, map outline l = map outline l' ->
  match resolver_resolve l s, resolver_resolve l' s with
  | Done (Ok a, s1), Done (Ok a', s2) => flat_map cells a = flat_map cells a' /\ s1 = s2
  | Done (Err e, s1), Done (Err e', s2) => e = e' /\ s1 = s2
  | Panicked w, Panicked w' => w = w'
  | _, _ => False
  end.
Proof. exact outline_session. Qed.
Print Assumptions C102_session.
(** ... wherever the programs stand: only the positions of the errors differ then. *)
Theorem C102_anywhere : forall l l' s, map outline (map unplaced l) = map outline (map unplaced l') ->
  says_the_same (resolver_resolve l s) (resolver_resolve l' s).
Proof. exact outline_unplaced. Qed.
Print Assumptions C102_anywhere.

Definition parsed_lines (ls : list string) : outcome (result (list stmt) parse_error) := parse sample_unicode true (source ls).
Definition outlined (ls : list string) : list (list event) :=
  match parsed_lines ls with Done (Ok l) => map outline (map unplaced l) | _ => nil end.
(** Other operators, literals, parentheses, properties and keys; printed or not; [if] or [while]. *)
Definition plain_lines : list string :=
  ["var a = 1"; "fun f(x)"; "  if (a)"; "    print x + a"; "f(a).p"].
Definition other_lines : list string :=
  ["var a = (" ++ s_quote ++ "one" ++ s_quote ++ ")"; "fun f(x)"; "  while (!(a))"; "    (x) * -a";
   "print f(m: a)"]%string.
Example C102_example :
  outlined plain_lines = outlined other_lines /\
  outlined plain_lines = [[Declares "a" no_place; Defines "a" no_place];
    [Defines "f" no_place; InFunction [("x", no_place)] [Reads "a" no_place; InBlock [Reads "x" no_place; Reads "a" no_place]]];
    [Reads "f" no_place; Reads "a" no_place]] /\
  parsed_lines plain_lines <> parsed_lines other_lines /\
  exists l l' r r', parsed_lines plain_lines = Done (Ok l) /\ parsed_lines other_lines = Done (Ok l') /\
    resolve l = Done (Ok r) /\ resolve l' = Done (Ok r') /\ flat_map cells r = flat_map cells r' /\
    flat_map cells r = [Slot (SlotIndex 0); At (VarLoc 1 0); At (VarLoc 1 0); At (VarLoc 2 0); At (VarLoc 0 1); At (VarLoc 0 0)].
Proof.
  refine (conj _ (conj _ (conj _ _))); [vm_compute; reflexivity | vm_compute; reflexivity | vm_compute; discriminate |].
  do 4 eexists. repeat (refine (conj _ _); [vm_compute; reflexivity|]). vm_compute. reflexivity.
Qed.
(** Rejected for the same reasons. *)
Example C102_example_rejected :
  outlined ["print this"; "if (1)"; "  var a = a + 1"] = outlined ["(this.p)"; "while (nil)"; "  var a = [a]"] /\
  exists l l' c c' d d', parsed_lines ["print this"; "if (1)"; "  var a = a + 1"] = Done (Ok l) /\
    parsed_lines ["(this.p)"; "while (nil)"; "  var a = [a]"] = Done (Ok l') /\
    resolve l = Done (Err [c; d]) /\ resolve l' = Done (Err [c'; d']) /\ c_message c = c_message c' /\ c_message d = c_message d' /\ c <> c'.
Proof.
  refine (conj _ _); [vm_compute; reflexivity|]. do 6 eexists.
  repeat (refine (conj _ _); [vm_compute; reflexivity|]). vm_compute. discriminate.
Qed.
(** That [nil] is returned belongs to the outline: parentheses around it matter in an initializer. *)
Definition without_returns (es : list event) : list event :=
  let fix go (e : event) : event :=
    match e with
    | Returns _ l => Returns true l
    | InBlock es => InBlock (map go es)
    | InFunction ps es => InFunction ps (map go es)
    | InClass x l s ms => InClass x l s (map (fun m => match m with (i, ps, es) => (i, ps, map go es) end) ms)
    | _ => e
    end in map go es.
Definition nil_lines (e : string) : list string := ["class A"; "  init()"; "    return " ++ e]%string.
Theorem C102_without_returns_refuted : ~ forall l l',
  map without_returns (map outline (map unplaced l)) = map without_returns (map outline (map unplaced l')) ->
  match resolve l, resolve l' with Done (Err _), Done (Ok _) => False | _, _ => True end.
Proof.
  intros H. specialize (H (program_of (nil_lines "(nil)")) (program_of (nil_lines "nil"))).
  assert (E : map without_returns (map outline (map unplaced (program_of (nil_lines "(nil)")))) =
              map without_returns (map outline (map unplaced (program_of (nil_lines "nil"))))) by (vm_compute; reflexivity).
  specialize (H E). clear E. vm_compute in H. exact H.
Qed.
Print Assumptions C102_without_returns_refuted.
