(** Size bounds in terms of sources. *)
From Verif Require Import Base F64 Token Ast Scanner Parser Resolver SpecLex SpecScan SpecGrammar SpecParse SpecSize
  SizeTree SizeScan ParseProps ParseMore ParseFinal ResolveProps.

Lemma resolve_errors_count l s es s' : resolver_resolve l s = Done (Err es, s') -> List.length es <= List.length l.
Proof.
  intros H. apply resolve_separately in H as (rs & H & E).
  assert (L : List.length rs = List.length l) by (clear E; induction H; cbn; congruence).
  assert (C : List.length (causes rs) <= List.length rs)
    by (clear; unfold causes; induction rs as [|[st|c] rs IH]; cbn [flat_map app List.length]; lia).
  unfold verdict in E. destruct (causes rs); [discriminate|]. injection E as ->. lia.
Qed.

Section Sizes.
Variable U : unicode.
Hypothesis Sn : sane U.
Variable oc : bool.
Variable gs : list string.
Hypothesis V : valid_source gs.

Lemma program_tokens toks l : scan_tokens U gs = Done (Ok toks) -> accepted U oc gs l ->
  program_size l + 2 <= 2 * List.length toks.
Proof.
  intros E [H|H].
  - apply (parse_exact U Sn oc gs V toks l E) in H as (eof & _ & D). apply program_bound in D. cbn in D. lia.
  - apply (parse_repl_exact U Sn oc gs V toks l E) in H as (eof & _ & D). apply program_bound in D. cbn in D. lia.
Qed.
Lemma accepted_scanned l : accepted U oc gs l -> exists toks, scan_tokens U gs = Done (Ok toks).
Proof.
  unfold accepted, parse, parse_repl_line, parse_with. intros H.
  destruct (scan_tokens U gs) as [[toks|es]| | |]; cbn in H; [eauto| | | |];
    destruct H; discriminate.
Qed.
Lemma program_source l : accepted U oc gs l -> program_size l <= 4 * List.length gs.
Proof.
  intros H. destruct (accepted_scanned _ H) as [toks E].
  pose proof (program_tokens _ _ E H). pose proof (scan_bound U gs Sn V _ E) as B. cbn in B. lia.
Qed.
Lemma expression_source e : parse_expression U oc gs = Done (Ok e) -> expr_parts e <= 4 * List.length gs.
Proof.
  intros H. assert (X : exists toks, scan_tokens U gs = Done (Ok toks)).
  { revert H. unfold parse_expression, parse_with.
    destruct (scan_tokens U gs) as [[toks|es]| | |]; cbn; eauto; discriminate. }
  destruct X as [toks E].
  destruct (proj1 (parse_expression_exact' U Sn oc gs V toks e E) H) as (eof & _ & D).
  apply expression_bound in D. pose proof (scan_bound U gs Sn V _ E) as B. cbn in B. lia.
Qed.
Lemma errors_source cs : parse U oc gs = Done (Err cs) \/ parse_repl_line U oc gs = Done (Err cs) ->
  List.length cs <= 2 * List.length gs + 1.
Proof.
  intros H. assert (X : scan_tokens U gs = Done (Err cs) \/
    exists toks, scan_tokens U gs = Done (Ok toks) /\ cs <> nil /\ errors_at toks 0 cs)
    by (destruct H as [H|H]; eapply parse_errors; eauto).
  destruct X as [X|(toks & X & _ & A)]; pose proof (scan_bound U gs Sn V _ X) as B; cbn in B; [lia|].
  apply errors_count in A. lia.
Qed.
End Sizes.
