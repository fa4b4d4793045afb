(** Statements and errors have places of their own: C28, C103.

    [own_tokens], [points_at], [points_in]: SpecOwn.v; [located], [parts]: SpecTree.v. *)
From Verif Require Import Base F64 Token Ast Scanner Parser Resolver Driver Segment SpecTree SpecOwn Own
  SpecLex SpecScan ScanFinal TestsParser P_Errors P_Parser P_Driver.
Local Open Scope string_scope.
Local Open Scope list_scope.

(** ** C28: the locations in a statement are those of its own tokens *)
Theorem C28_own_tokens : forall (repl : bool) U oc gs toks l, sane U -> valid_source gs -> scan_tokens U gs = Done (Ok toks) ->
  (if repl then parse_repl_line U oc gs else parse U oc gs) = Done (Ok l) -> own_tokens toks l.
Proof. exact own_parse. Qed.
Print Assumptions C28_own_tokens.

(** ** C103 *)
Theorem C103_errors_in_order : forall (repl : bool) U oc gs toks l s cs s',
  sane U -> valid_source gs -> scan_tokens U gs = Done (Ok toks) ->
  (if repl then parse_repl_line U oc gs else parse U oc gs) = Done (Ok l) ->
  resolver_resolve l s = Done (Err cs, s') -> points_in toks 0 cs.
Proof. exact run_errors_point. Qed.
Print Assumptions C103_errors_in_order.
Theorem C103_own_statement : forall (repl : bool) U oc gs toks l,
  sane U -> valid_source gs -> scan_tokens U gs = Done (Ok toks) ->
  (if repl then parse_repl_line U oc gs else parse U oc gs) = Done (Ok l) ->
  exists tss eof, toks = concat tss ++ [eof] /\ t_type eof = Eof /\
    Forall2 (fun ts st => Forall (located ts) (parts st) /\
      forall s c s', resolve_statement st s = RErr c s' -> exists t, In t ts /\ points_at t c) tss l.
Proof. exact statements_point. Qed.
Print Assumptions C103_own_statement.

(** Three statements, the first and the last of them wrong. *)
Definition blamed_lines : list string :=
  ["return this"; "var a = 1"; "class B < B"; "  m()"; "    super.m()"].
Definition blamed_tokens : list token :=
  match scan_tokens sample_unicode (source blamed_lines) with Done (Ok toks) => toks | _ => nil end.
Definition blamed_causes : list cause :=
  [mkCause (mkLoc 1 1) (Some "return") "Cannot return from top-level code.";
   mkCause (mkLoc 3 11) (Some "B") "A class cannot inherit from itself."].
Example C103_example :
  scan_tokens sample_unicode (source blamed_lines) = Done (Ok blamed_tokens) /\
  parse sample_unicode true (source blamed_lines) = Done (Ok (program_of blamed_lines)) /\
  resolve (program_of blamed_lines) = Done (Err blamed_causes) /\
  own_tokens blamed_tokens (program_of blamed_lines) /\ points_in blamed_tokens 0 blamed_causes.
Proof.
  assert (A : scan_tokens sample_unicode (source blamed_lines) = Done (Ok blamed_tokens)) by (vm_compute; reflexivity).
  assert (B : parse sample_unicode true (source blamed_lines) = Done (Ok (program_of blamed_lines))) by (vm_compute; reflexivity).
  assert (C : resolve (program_of blamed_lines) = Done (Err blamed_causes)) by (vm_compute; reflexivity).
  assert (V : valid_source (source blamed_lines)) by (apply check_valid; vm_compute; reflexivity).
  refine (conj A (conj B (conj C _))). split.
  - exact (C28_own_tokens false sample_unicode true _ _ _ sample_sane V A B).
  - assert (D : exists s s', resolver_resolve (program_of blamed_lines) s = Done (Err blamed_causes, s')).
    { exists (mkR [nil] NoFunction NoClass). eexists. vm_compute. reflexivity. }
    destruct D as (s & s' & D).
    exact (C103_errors_in_order false sample_unicode true _ _ _ s _ s' sample_sane V A B D).
Qed.
(** The order is that of the text: the same errors the other way round do not qualify. *)
Example C103_example_order : ~ points_in blamed_tokens 0 (rev blamed_causes).
Proof.
  intros H. inversion H as [|lo j t c cs _ N [L _] R]; subst; clear H.
  inversion R as [|lo j' t' c' cs' B N' [L' _] _]; subst; clear R.
  assert (X : j' = 0). { do 40 (destruct j' as [|j']; [vm_compute in N'; first [reflexivity | injection N' as <-; discriminate L' | discriminate N']|]); vm_compute in N'; destruct j'; discriminate N'. }
  subst. inversion B.
Qed.
