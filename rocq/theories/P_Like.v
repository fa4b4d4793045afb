(** The parser looks at kinds of tokens only, the resolver only compares names: C98, C99. *)
From Verif Require Import Base F64 Token Ast Scanner Parser Resolver Driver Segment SpecLike LikeParse LikeResolve LikeTop
  SpecLex SpecScan ScanFinal TestsParser P_Errors P_Parser P_Driver.
Local Open Scope string_scope.

(** ** C98 *)
Theorem C98_parse_tokens : forall R W toks toks', Forall2 (token_like R W) toks toks' -> keys_related R toks toks' ->
  keeps R W -> forall trailing oc,
  results_like R W (Forall2 (stmt_like R)) (parse_tokens toks trailing oc) (parse_tokens toks' trailing oc) /\
  results_like R W (expr_like R) (parse_expression_tokens toks trailing oc) (parse_expression_tokens toks' trailing oc).
Proof. exact (fun R W toks toks' T K E tr oc => conj (parse_like R W toks toks' tr oc T K E) (parse_expression_like R W toks toks' tr oc T K E)). Qed.
Print Assumptions C98_parse_tokens.
Theorem C98_parse : forall R W U gs gs' toks toks',
  scan_tokens U gs = Done (Ok toks) -> scan_tokens U gs' = Done (Ok toks') ->
  Forall2 (token_like R W) toks toks' -> keys_related R toks toks' -> keeps R W -> forall oc,
  results_like R W (Forall2 (stmt_like R)) (parse U oc gs) (parse U oc gs') /\
  results_like R W (Forall2 (stmt_like R)) (parse_repl_line U oc gs) (parse_repl_line U oc gs') /\
  results_like R W (expr_like R) (parse_expression U oc gs) (parse_expression U oc gs').
Proof.
  exact (fun R W U gs gs' a b S1 S2 T K E oc =>
    conj (parsed R W U oc gs gs' a b S1 S2 T K E)
      (conj (parsed_repl R W U oc gs gs' a b S1 S2 T K E) (parsed_expression R W U oc gs gs' a b S1 S2 T K E))).
Qed.
Print Assumptions C98_parse.
Theorem C98_literals : forall U gs gs' toks toks',
  scan_tokens U gs = Done (Ok toks) -> scan_tokens U gs' = Done (Ok toks') ->
  Forall2 same_but_literal toks toks' ->
  (forall i t t' c k k', nth_error toks i = Some t -> nth_error toks' i = Some t' ->
     nth_error toks (S i) = Some c -> t_type c = Colon -> key_of t k -> key_of t' k' -> k = k') ->
  forall oc, results_like literals any (Forall2 (stmt_like literals)) (parse U oc gs) (parse U oc gs').
Proof.
  exact (fun U gs gs' a b S1 S2 T K oc =>
    parsed literals any U oc gs gs' a b S1 S2 (same_but_literals a b T) K literals_keep).
Qed.
Print Assumptions C98_literals.

(** ** C99 *)
Theorem C99_resolve : forall R W, keeps_names R W -> forall l l', Forall2 (stmt_like R) l l' ->
  results_like R W (Forall2 (stmt_like R)) (resolve l) (resolve l').
Proof. exact resolve_like. Qed.
Print Assumptions C99_resolve.
Theorem C99_resolver : forall R W, keeps_names R W -> forall l l' s s', Forall2 (stmt_like R) l l' -> state_like R s s' ->
  match resolver_resolve l s, resolver_resolve l' s' with
  | Done (r, u), Done (r', u') => results_like R W (Forall2 (stmt_like R)) (Done r) (Done r') /\ state_like R u u'
  | Panicked w, Panicked w' => w = w'
  | _, _ => False
  end.
Proof. exact resolver_like. Qed.
Print Assumptions C99_resolver.
Theorem C99_run : forall R W U oc gs gs' toks toks',
  scan_tokens U gs = Done (Ok toks) -> scan_tokens U gs' = Done (Ok toks') ->
  Forall2 (token_like R W) toks toks' -> keys_related R toks toks' -> keeps R W -> keeps_names R W ->
  forall for_repl s s', state_like R s s' ->
  match run U oc s gs for_repl, run U oc s' gs' for_repl with
  | Done (r, u), Done (r', u') => results_like R W (Forall2 (stmt_like R)) (Done r) (Done r') /\ state_like R u u'
  | Panicked w, Panicked w' => w = w'
  | Diverged, Diverged | OutOfFuel, OutOfFuel => True
  | _, _ => False
  end.
Proof. exact run_like. Qed.
Print Assumptions C99_run.
Theorem C99_new : forall R s, resolver_new = Done s -> state_like R s s.
Proof. exact new_like. Qed.
Print Assumptions C99_new.

(** ** Examples *)
(** The number of statements, if a program is accepted and resolved. *)
Definition count_accepted (gs : list string) : nat :=
  match parse sample_unicode true gs with
  | Done (Ok l) => match resolve l with Done (Ok l') => length l' | _ => 0 end
  | _ => 0
  end.
Definition first_text : list string :=
  source ["fun f(a)"; "  return a + 1"; "var m = {k: ""one"", ""l"": 2}"; "print f(3) + ""x"" + m"; "class C"; "  init()"; "    this.k = m"].
(** Other numbers and strings. *)
Definition second_text : list string :=
  source ["fun f(a)"; "  return a + 234.5"; "var m = {k: """", ""l"": 0}"; "print f(100) + ""long"" + m"; "class C"; "  init()"; "    this.k = m"].
(** Other names and keys as well. *)
Definition third_text : list string :=
  source ["fun mm(x)"; "  return x + 0.5"; "var C = {xx: ""f"", ""init"": 2}"; "print mm(3) + ""x"" + C"; "class k"; "  init()"; "    this.xx = C"].
Definition other_names : list (string * string) :=
  [("f", "mm"); ("a", "x"); ("m", "C"); ("k", "xx"); ("C", "k"); ("init", "init"); ("this", "this")].
Definition other_keys : list (string * string) := [("k", "xx"); ("l", "init")].
Definition renamed_leaves : leaves :=
  mkLeaves (fun x y => In (x, y) other_names) (fun x y => In (x, y) other_keys) any any any eq.


Ltac kinds := repeat (constructor; [repeat split; cbn; auto 12; try discriminate; try (intros [|]; discriminate); constructor; exact I|]); constructor.
Ltac colons := apply keys_by_pairs; repeat (split; [try discriminate; intros _ ? ? [[? ->]|[? ?]] [[? ->]|[? ?]]; try discriminate; cbn in *;
  repeat match goal with H : Some _ = Some _ |- _ => injection H as <- end; auto|]); exact I.
Ltac lists p x y :=
  let a := eval vm_compute in (tokens_of_source x) in let b := eval vm_compute in (tokens_of_source y) in change (p a b).

Example C98_literals_example :
  scan_tokens sample_unicode first_text = Done (Ok (tokens_of_source first_text)) /\
  scan_tokens sample_unicode second_text = Done (Ok (tokens_of_source second_text)) /\
  Forall2 same_but_literal (tokens_of_source first_text) (tokens_of_source second_text) /\
  keys_related literals (tokens_of_source first_text) (tokens_of_source second_text) /\
  count_accepted first_text = 4 /\ count_accepted second_text = 4 /\ first_text <> second_text.
Proof.
  apply conj; [vm_compute; reflexivity|]. apply conj; [vm_compute; reflexivity|].
  apply conj; [lists (Forall2 same_but_literal) first_text second_text; kinds|].
  apply conj; [lists (keys_related literals) first_text second_text; colons|].
  apply conj; [vm_compute; reflexivity|]. apply conj; [vm_compute; reflexivity|]. vm_compute. discriminate.
Qed.
Lemma renamed_keep : keeps renamed_leaves any /\ keeps_names renamed_leaves any.
Proof.
  assert (U : forall a a' b b', In (a, a') other_names -> In (b, b') other_names -> (a = b <-> a' = b')).
  { intros a a' b b' A B. cbn in A, B.
    repeat match goal with H : _ \/ _ |- _ => destruct H as [H|H]; [injection H as <- <-|] | H : False |- _ => destruct H end;
      split; intros E; try discriminate E; reflexivity. }
  assert (V : forall a a' b b', In (a, a') other_keys -> In (b, b') other_keys -> (a = b <-> a' = b')).
  { intros a a' b b' A B. cbn in A, B.
    repeat match goal with H : _ \/ _ |- _ => destruct H as [H|H]; [injection H as <- <-|] | H : False |- _ => destruct H end;
      split; intros E; try discriminate E; reflexivity. }
  assert (N : forall x x', In (x, x') other_names ->
    (x = "this" <-> x' = "this") /\ (x = "super" <-> x' = "super") /\ (x = "init" <-> x' = "init")).
  { intros x x' H. cbn in H.
    repeat match goal with H : _ \/ _ |- _ => destruct H as [H|H]; [injection H as <- <-|] | H : False |- _ => destruct H end;
      repeat split; intros E; try discriminate E; reflexivity. }
  unfold keeps, keeps_names, renamed_leaves, any. cbn [names_like keys_like kinds_like places_like].
  repeat match goal with |- _ /\ _ => apply conj end; auto.
  - intros x x' H. now apply N.
  - intros x x' H. destruct (N x x' H) as (_ & _ & I).
    destruct (String.eqb_spec x "init"), (String.eqb_spec x' "init"); auto; tauto.
Qed.
Example C98_renamed_example :
  scan_tokens sample_unicode third_text = Done (Ok (tokens_of_source third_text)) /\
  Forall2 (token_like renamed_leaves any) (tokens_of_source first_text) (tokens_of_source third_text) /\
  keys_related renamed_leaves (tokens_of_source first_text) (tokens_of_source third_text) /\
  keeps renamed_leaves any /\ keeps_names renamed_leaves any /\ count_accepted third_text = 4.
Proof.
  apply conj; [vm_compute; reflexivity|].
  apply conj; [lists (Forall2 (token_like renamed_leaves any)) first_text third_text; kinds|].
  apply conj; [lists (keys_related renamed_leaves) first_text third_text; colons|].
  apply conj; [apply renamed_keep|]. apply conj; [apply renamed_keep|]. vm_compute. reflexivity.
Qed.

(** Keys of maps are compared, even those written as strings. *)
Definition two_keys : list string := source ["x = {""a"": 1, ""b"": 2}"].
Definition one_key_twice : list string := source ["x = {""a"": 1, ""a"": 2}"].
Lemma keys_kinds : Forall2 same_but_literal (tokens_of_source two_keys) (tokens_of_source one_key_twice).
Proof. lists (Forall2 same_but_literal) two_keys one_key_twice; kinds. Qed.
Theorem C98_string_keys_refuted : ~ forall U gs gs' toks toks',
  scan_tokens U gs = Done (Ok toks) -> scan_tokens U gs' = Done (Ok toks') ->
  Forall2 same_but_literal toks toks' ->
  results_like literals any (Forall2 (stmt_like literals)) (parse U true gs) (parse U true gs').
Proof.
  intros H.
  specialize (H sample_unicode two_keys one_key_twice (tokens_of_source two_keys) (tokens_of_source one_key_twice)).
  assert (A : scan_tokens sample_unicode two_keys = Done (Ok (tokens_of_source two_keys))) by (vm_compute; reflexivity).
  assert (B : scan_tokens sample_unicode one_key_twice = Done (Ok (tokens_of_source one_key_twice))) by (vm_compute; reflexivity).
  specialize (H A B keys_kinds).
  let x := eval vm_compute in (parse sample_unicode true two_keys) in assert (parse sample_unicode true two_keys = x) as E by (vm_compute; reflexivity). rewrite E in H; clear E.
  let x := eval vm_compute in (parse sample_unicode true one_key_twice) in assert (parse sample_unicode true one_key_twice = x) as E by (vm_compute; reflexivity). rewrite E in H; clear E.
  exact H.
Qed.
Print Assumptions C98_string_keys_refuted.

(** The resolver must see which names are equal, and the name [init]. *)
Definition any_names : leaves := mkLeaves any eq eq eq eq any.
Definition with_names (x y m : string) : list stmt :=
  [SBlock [SVar x (SlotIndex 0) ENil default_loc; SVar y (SlotIndex 0) ENil default_loc];
   SClass (ClassDef "C" None [NamedFun m (FunDef nil [SReturn (EBool true) default_loc] Method default_loc)] default_loc)].
Definition accepted (x : outcome (result (list stmt) parse_error)) : bool :=
  match x with Done (Ok _) => true | _ => false end.
Example C99_names_matter :
  accepted (resolve (with_names "a" "b" "m")) = true /\
  accepted (resolve (with_names "a" "a" "m")) = false /\ accepted (resolve (with_names "a" "b" "init")) = false.
Proof. vm_compute. auto. Qed.
Theorem C99_any_names_refuted : ~ forall l l', Forall2 (stmt_like any_names) l l' ->
  results_like any_names any (Forall2 (stmt_like any_names)) (resolve l) (resolve l').
Proof.
  intros H. specialize (H (with_names "a" "b" "m") (with_names "a" "a" "m")).
  assert (A : Forall2 (stmt_like any_names) (with_names "a" "b" "m") (with_names "a" "a" "m")) by (repeat constructor).
  specialize (H A).
  let x := eval vm_compute in (resolve (with_names "a" "b" "m")) in assert (resolve (with_names "a" "b" "m") = x) as E by (vm_compute; reflexivity). rewrite E in H; clear E.
  let x := eval vm_compute in (resolve (with_names "a" "a" "m")) in assert (resolve (with_names "a" "a" "m") = x) as E by (vm_compute; reflexivity). rewrite E in H; clear E.
  exact H.
Qed.
Print Assumptions C99_any_names_refuted.
(** Errors are related too: the name in the message is the other name, the place the other place. *)
Example C99_errors_example :
  told (resolve (program_of ["fun f(a, a)"; "  print a"])) =
    [(mkLoc 1 10, Some "a", "Variable with this name already declared in this scope.")] /\
  told (resolve (program_of ["fun g(cd, cd)"; "  print cd"])) =
    [(mkLoc 1 11, Some "cd", "Variable with this name already declared in this scope.")].
Proof. vm_compute. auto. Qed.
