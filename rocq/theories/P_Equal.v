(** What [==] says about tokens, trees and errors: C100. *)
From Coq Require Import Floats.SpecFloat.
From Verif Require Import Base F64 Token Ast Scanner Parser Resolver Segment Show SpecLex SpecScan SpecTree SpecEqual Equal
  EqualFacts EqualTop ScanFinal ParseFinal ResolveFinal TestsParser P_Errors P_Parser.
Local Open Scope string_scope.

Theorem C100_trees : forall l l',
  Forall ordinary_part (program_parts l) -> Forall ordinary_part (program_parts l') ->
  (program_eqb l l' = true <-> Forall2 same_stmt l l').
Proof. exact program_same. Qed.
Print Assumptions C100_trees.
Theorem C100_programs : forall l l', from_source l -> from_source l' ->
  (program_eqb l l' = true <-> Forall2 same_stmt l l').
Proof. exact equal_programs. Qed.
Print Assumptions C100_programs.
Theorem C100_expressions : forall U oc gs e U' oc' gs' e', sane U -> valid_source gs ->
  parse_expression U oc gs = Done (Ok e) -> sane U' -> valid_source gs' -> parse_expression U' oc' gs' = Done (Ok e') ->
  (expr_eqb e e' = true <-> same_expr e e').
Proof. exact equal_expressions. Qed.
Print Assumptions C100_expressions.
Theorem C100_reflexive : forall l, from_source l -> program_eqb l l = true.
Proof. exact equal_refl. Qed.
Print Assumptions C100_reflexive.
Theorem C100_symmetric : forall l l', from_source l -> from_source l' -> program_eqb l l' = true -> program_eqb l' l = true.
Proof. exact equal_sym. Qed.
Print Assumptions C100_symmetric.
Theorem C100_transitive : forall l l' l'', from_source l -> from_source l' -> from_source l'' ->
  program_eqb l l' = true -> program_eqb l' l'' = true -> program_eqb l l'' = true.
Proof. exact equal_trans. Qed.
Print Assumptions C100_transitive.
Theorem C100_small_maps : forall l l', from_source l -> from_source l' -> Forall small_map (program_parts l) ->
  (program_eqb l l' = true <-> l = l').
Proof. exact equal_small. Qed.
Print Assumptions C100_small_maps.
Theorem C100_tokens : forall U gs toks U' gs' toks', sane U -> valid_source gs -> scan_tokens U gs = Done (Ok toks) ->
  sane U' -> valid_source gs' -> scan_tokens U' gs' = Done (Ok toks') ->
  (list_eqb token_eqb toks toks' = true <-> toks = toks').
Proof. exact equal_tokens. Qed.
Print Assumptions C100_tokens.
Theorem C100_token_values : forall U gs toks t, sane U -> valid_source gs -> scan_tokens U gs = Done (Ok toks) -> In t toks ->
  match t_type t with Number => t_string t = None /\ exists x, t_float t = Some x /\ parse_f64 (t_lexeme t) = Some x
  | TString => t_float t = None /\ exists s, t_string t = Some s
  | _ => t_string t = None /\ t_float t = None end.
Proof. exact scanned_values. Qed.
Print Assumptions C100_token_values.
Theorem C100_errors : forall e e', error_eqb e e' = true <-> e = e'.
Proof. exact equal_errors. Qed.
Print Assumptions C100_errors.

(** *** Instances *)
Definition map_ab := ["fun f(y, x)"; "  return {a: 1, b: [x, 2]}"].
Definition map_ba := ["fun f(y, x)"; "  return {      b: [x, 2], a: 1}"].
Definition map_a := ["fun f(y, x)"; "  return {a: [x, 2]}"].
Ltac text_program ls := exists sample_unicode, true, (source ls), (program_of ls); split; [apply sample_sane|];
  split; [apply check_valid; vm_compute; reflexivity|]; split; [left; vm_compute; reflexivity|left; reflexivity].
Lemma from_ab : from_source (program_of map_ab). Proof. text_program map_ab. Qed.
Lemma from_ba : from_source (program_of map_ba). Proof. text_program map_ba. Qed.
Lemma from_a : from_source (program_of map_a). Proof. text_program map_a. Qed.
Example C100_orders : Forall2 same_stmt (program_of map_ab) (program_of map_ba) /\ List.length (program_of map_ab) = 1.
Proof.
  split; [|vm_compute; reflexivity].
  apply (C100_programs _ _ from_ab from_ba). vm_compute. reflexivity.
Qed.
Example C100_other : program_eqb (program_of map_ab) (program_of map_a) = false /\
  program_eqb (program_of map_a) (program_of map_a) = true.
Proof. split; vm_compute; reflexivity. Qed.
Definition resolved_of (ls : list string) : list stmt :=
  match resolve (program_of ls) with Done (Ok l) => l | _ => nil end.
Lemma from_resolved : from_source (resolved_of map_ab).
Proof.
  exists sample_unicode, true, (source map_ab), (program_of map_ab). split; [apply sample_sane|].
  split; [apply check_valid; vm_compute; reflexivity|]. split; [left; vm_compute; reflexivity|right].
  assert (N : exists s, resolver_new = Done s) by (eexists; vm_compute; reflexivity). destruct N as [s N].
  exists s. eexists. split; [exact (new_top s N)|].
  vm_compute in N. injection N as <-. vm_compute. reflexivity.
Qed.
Example C100_resolved : program_eqb (resolved_of map_ab) (resolved_of map_ab) = true /\
  program_eqb (resolved_of map_ab) (program_of map_ab) = false.
Proof. split; [exact (C100_reflexive _ from_resolved)|vm_compute; reflexivity]. Qed.
Example C100_one_entry : Forall small_map (program_parts (program_of map_a)) /\
  (program_eqb (program_of map_a) (program_of map_ba) = true <-> program_of map_a = program_of map_ba).
Proof.
  assert (M : Forall small_map (program_parts (program_of map_a))) by (vm_compute; repeat constructor).
  split; [exact M|]. exact (C100_small_maps _ _ from_a from_ba M).
Qed.
Example C100_scanned : list_eqb token_eqb (tokens_of_source (source map_ab)) (tokens_of_source (source map_ba)) = false /\
  list_eqb token_eqb (tokens_of_source (source map_ab)) (tokens_of_source (source map_ab)) = true /\
  Nat.leb 10 (List.length (tokens_of_source (source map_ab))) = true.
Proof. repeat split; vm_compute; reflexivity. Qed.

(** ** What [==] does not say *)

(** Equal trees of two programs need not be identical: the order of entries, which the printed tree shows, is ignored. *)
Theorem C100_identity_refuted : exists l l', from_source l /\ from_source l' /\ program_eqb l l' = true /\ l <> l'.
Proof.
  exists (program_of map_ab), (program_of map_ba). split; [exact from_ab|]. split; [exact from_ba|].
  split; [vm_compute; reflexivity|]. vm_compute. discriminate.
Qed.
Print Assumptions C100_identity_refuted.

(** A tree put together by hand can differ from itself. *)
Theorem C100_reflexive_refuted : exists l, program_eqb l l = false.
Proof. exists [SPrint (ENumber S754_nan)]. reflexivity. Qed.
Print Assumptions C100_reflexive_refuted.

(** The resolver can tell equal trees put together by hand apart. *)
Theorem C100_resolve_refuted : exists l l' r r',
  program_eqb l l' = true /\ resolve l = Done (Ok r) /\ resolve l' = Done (Ok r') /\ program_eqb r r' = false.
Proof.
  exists [SExpression (EMap [("a", var_at "x" 1 1); ("b", var_at "y" 1 2)])],
    [SExpression (EMap [("b", var_at "y" 1 2); ("a", var_at "x" 1 1)])].
  eexists. eexists. split; [vm_compute; reflexivity|]. split; [vm_compute; reflexivity|]. split; vm_compute; reflexivity.
Qed.
Print Assumptions C100_resolve_refuted.
