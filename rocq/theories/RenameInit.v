(** The name [init] cannot be changed freely. *)
From Verif Require Import Base F64 Token Ast Scanner Parser Resolver Segment SpecLex SpecRename SpecRenameText ScanFinal TestsParser.
Local Open Scope string_scope.

Definition swap_init (x : string) : string := if x =? "init" then "make" else if x =? "make" then "init" else x.
Lemma swap_init_renaming : renaming swap_init.
Proof.
  split; [|repeat split].
  assert (I : forall x, swap_init (swap_init x) = x).
  { intros x. unfold swap_init. destruct (String.eqb_spec x "init") as [->|Na]; [reflexivity|].
    destruct (String.eqb_spec x "make") as [->|Nb]; [reflexivity|].
    destruct (String.eqb_spec x "init"); [contradiction|]. now destruct (String.eqb_spec x "make"). }
  intros x y E. apply (f_equal swap_init) in E. now rewrite !I in E.
Qed.
Definition with_init : string := lns ["class A"; "  init()"; "    print 1"; ""].
Definition with_make : string := lns ["class A"; "  make()"; "    print 1"; ""].
Lemma init_refuted : ~ forall r U oc gs gs' es es', renaming r -> sane U -> valid_source gs -> valid_source gs' ->
  lexes U gs es -> lexes U gs' es' -> Forall2 (renamed_elem r) es es' ->
  renamed_program r (parse U oc gs) (parse U oc gs').
Proof.
  intros H.
  assert (V : valid_source (segment with_init)) by (apply check_valid; vm_compute; reflexivity).
  assert (V' : valid_source (segment with_make)) by (apply check_valid; vm_compute; reflexivity).
  specialize (H swap_init sample_unicode true (segment with_init) (segment with_make)
    (elements with_init) (elements with_make) swap_init_renaming sample_sane V V' (elements_lex _) (elements_lex _)).
  assert (F : Forall2 (renamed_elem swap_init) (elements with_init) (elements with_make)).
  { set (x := elements with_init). set (y := elements with_make). vm_compute in x. vm_compute in y. subst x y.
    repeat (constructor; [first [apply re_name; reflexivity|apply re_other; discriminate|apply re_blank; exact I]|]).
    constructor. }
  specialize (H F). vm_compute in H. discriminate H.
Qed.
