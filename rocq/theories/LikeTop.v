(** The entry points on sources whose tokens have the same kinds. *)
From Verif Require Import Base F64 Token Ast Scanner Parser Resolver Driver SpecLike LikeParse LikeResolve.

(** Two sources whose tokens have the same kinds and related contents. *)
Section Top.
Variable R : leaves.
Variable W : string -> string -> Prop.
Variable U : unicode.
Variable oc : bool.
Variables gs gs' : list string.
Variables toks toks' : list token.
Hypothesis S1 : scan_tokens U gs = Done (Ok toks).
Hypothesis S2 : scan_tokens U gs' = Done (Ok toks').
Hypothesis TL : Forall2 (token_like R W) toks toks'.
Hypothesis KR : keys_related R toks toks'.
Hypothesis KE : keeps R W.

Lemma parsed : results_like R W (Forall2 (stmt_like R)) (parse U oc gs) (parse U oc gs').
Proof. unfold parse, parse_with. rewrite S1, S2. cbn [obind]. now apply parse_like. Qed.
Lemma parsed_repl : results_like R W (Forall2 (stmt_like R)) (parse_repl_line U oc gs) (parse_repl_line U oc gs').
Proof. unfold parse_repl_line, parse_with. rewrite S1, S2. cbn [obind]. now apply parse_like. Qed.
Lemma parsed_expression : results_like R W (expr_like R) (parse_expression U oc gs) (parse_expression U oc gs').
Proof. unfold parse_expression, parse_with. rewrite S1, S2. cbn [obind]. now apply parse_expression_like. Qed.

Hypothesis KN : keeps_names R W.
Lemma run_like for_repl s s' : state_like R s s' ->
  match Driver.run U oc s gs for_repl, Driver.run U oc s' gs' for_repl with
  | Done (r, u), Done (r', u') => results_like R W (Forall2 (stmt_like R)) (Done r) (Done r') /\ state_like R u u'
  | Panicked w, Panicked w' => w = w'
  | Diverged, Diverged | OutOfFuel, OutOfFuel => True
  | _, _ => False
  end.
Proof.
  intros Y. unfold Driver.run.
  assert (H : results_like R W (Forall2 (stmt_like R))
    (if for_repl then parse_repl_line U oc gs else parse U oc gs)
    (if for_repl then parse_repl_line U oc gs' else parse U oc gs')) by (destruct for_repl; [apply parsed_repl|apply parsed]).
  destruct (if for_repl then parse_repl_line U oc gs else parse U oc gs) as [[a|c]| | |],
    (if for_repl then parse_repl_line U oc gs' else parse U oc gs') as [[a'|c']| | |]; cbn in *; auto; try contradiction.
  pose proof (resolver_like R W KN a a' s s' H Y) as Z.
  destruct (resolver_resolve a s) as [[r u]| | |], (resolver_resolve a' s') as [[r' u']| | |]; auto; contradiction.
Qed.
End Top.

(** The condition on keys, token by token. *)
Fixpoint keys_pairs (R : leaves) (toks toks' : list token) : Prop :=
  match toks, toks' with
  | t :: (c :: _) as r, t' :: r' =>
    (t_type c = Colon -> forall k k', key_of t k -> key_of t' k' -> keys_like R k k') /\ keys_pairs R r r'
  | _, _ => True
  end.
Lemma keys_by_pairs R toks : forall toks', keys_pairs R toks toks' -> keys_related R toks toks'.
Proof.
  induction toks as [|t r IH]; intros [|t' r'] H i u u' c k k' A B C D E F; try (destruct i; discriminate).
  destruct r as [|c0 r]; [destruct i; discriminate|]. cbn [keys_pairs] in H. destruct H as (H & HR).
  destruct i as [|i]; cbn in A, B, C.
  - injection A as <-. injection B as <-. injection C as <-. now apply H.
  - exact (IH r' HR i u u' c k k' A B C D E F).
Qed.

Lemma literals_keep : keeps literals any.
Proof.
  unfold keeps, literals, any. cbn. repeat (apply conj; [intros; subst; try tauto; auto|]); auto.
Qed.
Lemma literals_keep_names : keeps_names literals any.
Proof. unfold keeps_names, literals, any. cbn. repeat (apply conj; [intros; subst; repeat split; tauto|]); auto. Qed.

Lemma same_but_literals toks toks' : Forall2 same_but_literal toks toks' -> Forall2 (token_like literals any) toks toks'.
Proof.
  induction 1 as [|t u l l' (T & I & F & G) H IH]; constructor; auto.
  assert (O : forall A (a b : option A), (a = None <-> b = None) -> option_like any a b).
  { intros A [a|] [b|] E; try constructor; try exact Logic.I; destruct E as [E1 E2];
      [discriminate (E2 eq_refl)|discriminate (E1 eq_refl)]. }
  unfold token_like. cbn. repeat split; auto.
Qed.
