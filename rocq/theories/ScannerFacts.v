(** The outdent loop of the scanner model and the literal loop. *)
From Verif Require Import Base F64 Token Scanner.

(** src/scanner.rs:346-359, one iteration of the [while] loop: [inr] leaves the loop,
    [inl] goes round again. *)
Definition outdent_body (s : scanner) : outcome (scanner + scanner * bool) :=
  match sc_indentation s with
  | nil => Done (inr (s, false))
  | amount :: rest =>
    match (amount ?= sc_bol_spaces s)%N with
    | Datatypes.Eq => Done (inr (s, true))
    | Datatypes.Gt =>
      olet s1 <- add_token Outdent (set_indentation rest s) ;; Done (inl s1)
    | Datatypes.Lt => Done (inl s)
    end
  end.
(** The loop, cut off after [n] iterations. *)
Fixpoint outdent_iter (n : nat) (s : scanner) : outcome (scanner * bool) :=
  match n with
  | 0 => OutOfFuel
  | S n => olet r <- outdent_body s ;;
           match r with inl s1 => outdent_iter n s1 | inr r => Done r end
  end.

Lemma add_token_fields k s s1 :
  add_token k s = Done s1 ->
  sc_indentation s1 = sc_indentation s /\ sc_bol_spaces s1 = sc_bol_spaces s.
Proof.
  unfold add_token, obind. intros H.
  repeat match type of H with
  | context [match ?x with _ => _ end] => destruct x; try discriminate
  end; injection H as <-; auto.
Qed.

(** [Diverged] is returned exactly when no number of iterations leaves the
    loop; any other outcome is that of some finite number of iterations. *)
Lemma outdent_loop_literal s :
  match outdent_loop (sc_indentation s) s with
  | Diverged => forall n, outdent_iter n s = OutOfFuel
  | r => exists n, forall m, n <= m -> outdent_iter m s = r
  end.
Proof.
  remember (sc_indentation s) as st eqn:E. revert s E.
  induction st as [|a st IH]; intros s E; cbn.
  - exists 1. intros [|m] L; [lia|]. cbn. unfold outdent_body. now rewrite <- E.
  - destruct (N.compare_spec a (sc_bol_spaces s)) as [C|C|C].
    + exists 1. intros [|m] L; [lia|]. cbn. unfold outdent_body. rewrite <- E.
      now rewrite (proj2 (N.compare_eq_iff _ _) C).
    + intros n. induction n as [|n IHn]; [reflexivity|].
      cbn. unfold outdent_body. rewrite <- E.
      rewrite (proj2 (N.compare_lt_iff _ _) C). cbn. exact IHn.
    + assert (B : outdent_body s =
        olet s1 <- add_token Outdent (set_indentation st s) ;; Done (inl s1)).
      { unfold outdent_body. rewrite <- E.
        now rewrite (proj2 (N.compare_gt_iff _ _) C). }
      destruct (add_token Outdent (set_indentation st s)) as [s1| | |] eqn:A;
        cbn in *.
      * destruct (add_token_fields _ _ _ A) as [I _]. cbn in I.
        specialize (IH s1 (eq_sym I)).
        destruct (outdent_loop st s1).
        -- destruct IH as [n IH]. exists (S n). intros [|m] L; [lia|].
           cbn. rewrite B. cbn. apply IH. lia.
        -- destruct IH as [n IH]. exists (S n). intros [|m] L; [lia|].
           cbn. rewrite B. cbn. apply IH. lia.
        -- intros [|n]; [reflexivity|]. cbn. rewrite B. cbn. apply IH.
        -- destruct IH as [n IH]. exists (S n). intros [|m] L; [lia|].
           cbn. rewrite B. cbn. apply IH. lia.
      * exists 1. intros [|m] L; [lia|]. cbn. now rewrite B.
      * intros [|n]; [reflexivity|]. cbn. rewrite B.
        exfalso. revert A. unfold add_token, source_slice, obind.
        destruct (slice _ _ _); discriminate.
      * exists 1. intros [|m] L; [lia|]. cbn. now rewrite B.
Qed.
