(** The number of tokens and of scan errors is bounded by the length of the source. *)
From Verif Require Import Base F64 Token Scanner SpecLex SpecLayout SpecScan ScanLex ScanLayout ScanFinal SpecSize.

Lemma elems_tokens_bound l : forall prev,
  List.length (elems_tokens prev l) + List.length (filter is_space l) <= List.length l.
Proof.
  induction l as [|[b e] l IH]; intros prev; cbn [elems_tokens filter List.length]; [lia|].
  rewrite app_length. specialize (IH (Some e)). cbn [snd].
  destruct e; cbn [is_space snd elem_tokens List.length]; lia.
Qed.
Lemma elems_errors_bound l :
  List.length (elems_errors l) + List.length (filter is_space l) <= List.length l.
Proof.
  induction l as [|[b e] l IH]; cbn [elems_errors flat_map filter List.length]; [lia|].
  rewrite app_length. fold (elems_errors l).
  destruct e; cbn [is_space snd elem_errors List.length]; lia.
Qed.
Lemma leading_content l : leading l ++ content l = l.
Proof. induction l as [|[b e] l IH]; cbn; [reflexivity|]. destruct (is_blank e); cbn; congruence. Qed.
Lemma leading_spaces l : (0 < indentation l)%N -> 1 <= List.length (filter is_space (leading l)).
Proof. unfold indentation. intros H. lia. Qed.
Lemma filter_split (w : N) (l : list N) :
  List.length (filter (fun n => w <? n)%N l) + List.length (filter (fun n => n <=? w)%N l) = List.length l.
Proof.
  induction l as [|n l IH]; cbn; [reflexivity|].
  destruct (N.ltb_spec w n), (N.leb_spec n w); cbn; lia.
Qed.

(** What a line of layout costs. *)
Lemma open_line_bound stack joined w p toks errs stack' :
  open_line stack joined w p = Some (toks, errs, stack') ->
  List.length toks + List.length stack' <= List.length stack + (if (0 <? w)%N then 2 else 0) /\
  List.length errs <= (if (0 <? w)%N then 1 else 0).
Proof.
  destruct p as [before e]. cbn [open_line].
  destruct (N.eqb_spec w (hd 0%N stack)) as [E|E].
  { intros Q. injection Q as <- <- <-. cbn. destruct (0 <? w)%N; lia. }
  destruct (N.ltb_spec (hd 0%N stack) w) as [L|L].
  { destruct (N.ltb_spec 0 w) as [P|P]; [|lia].
    destruct joined; intros Q; injection Q as <- <- <-; cbn; lia. }
  pose proof (filter_split w stack) as F.
  destruct (filter (fun n => n <=? w)%N stack) as [|n still] eqn:Es.
  - intros Q. injection Q as <- <- <-. rewrite repeat_length. cbn [List.length] in *.
    destruct (N.eqb_spec w 0) as [->|W]; cbn [N.ltb N.compare List.length]; [lia|].
    destruct (N.ltb_spec 0 w) as [P|P]; lia.
  - destruct (n =? w)%N; [|discriminate]. intros Q. injection Q as <- <- <-.
    rewrite repeat_length. destruct (0 <? w)%N; cbn [List.length] in *; lia.
Qed.

Definition line_length (l : line) : nat :=
  List.length (body l) + match ending l with ByEof => 0 | _ => 1 end.

Lemma terminator_bound l : List.length (terminator l) + List.length (body l) <= line_length l.
Proof.
  unfold terminator, line_length. destruct (ending l); cbn; try lia.
  destruct (content (body l)); cbn; [lia|]. destruct (_ || _); cbn; lia.
Qed.

Lemma layout_bound ls : forall stack joined prev toks errs final,
  layout stack joined prev ls = Some (toks, errs, final) ->
  List.length toks + List.length final <= List.length stack + 2 * sum_of line_length ls /\
  List.length errs <= sum_of line_length ls.
Proof.
  induction ls as [|l ls IH]; intros stack joined prev toks errs final; cbn [layout].
  { intros Q. injection Q as <- <- <-. cbn. lia. }
  assert (B : forall o m s,
    match content (body l) with
    | nil => Some (nil, nil, stack)
    | first :: _ => open_line stack joined (indentation (body l)) first
    end = Some (o, m, s) ->
    List.length o + List.length s <= List.length stack + 2 * List.length (filter is_space (leading (body l))) /\
    List.length m <= List.length (filter is_space (leading (body l)))).
  { intros o m s. destruct (content (body l)) as [|first rest].
    - intros Q. injection Q as <- <- <-. cbn. lia.
    - intros Q. apply open_line_bound in Q. destruct Q as [Q1 Q2].
      destruct (N.ltb_spec 0 (indentation (body l))) as [P|P]; [apply leading_spaces in P|]; lia. }
  destruct (match content (body l) with nil => _ | first :: _ => _ end) as [[[o m] s]|]; [|discriminate].
  specialize (B _ _ _ eq_refl) as [B1 B2].
  destruct (layout s _ _ ls) as [[[toks' errs'] final']|] eqn:EL; [|discriminate].
  intros Q. injection Q as <- <- <-. apply IH in EL as [L1 L2].
  change (sum_of line_length (l :: ls)) with (line_length l + sum_of line_length ls).
  pose proof (elems_tokens_bound (body l) prev) as T.
  pose proof (terminator_bound l) as E.
  pose proof (elems_errors_bound (leading (body l))) as E1.
  pose proof (elems_errors_bound (content (body l))) as E2.
  assert (Lb : List.length (body l) = List.length (leading (body l)) + List.length (content (body l))).
  { rewrite <- (leading_content (body l)) at 1. apply app_length. }
  assert (Fb : filter is_space (body l) = (filter is_space (leading (body l)) ++ filter is_space (content (body l)))%list).
  { rewrite <- (leading_content (body l)) at 1. apply filter_app. }
  rewrite Fb in T. rewrite !app_length in *. lia.
Qed.

Lemma split_length es : forall acc, sum_of line_length (split_lines acc es) = List.length acc + List.length es.
Proof.
  induction es as [|[b e] es IH]; intros acc; cbn [split_lines].
  { cbn. unfold line_length. cbn. lia. }
  destruct e;
    repeat match goal with |- context [split_lines (acc ++ [?x]) es] =>
      rewrite (IH (acc ++ [x])%list), app_length end; cbn [List.length]; try lia.
  all: change (sum_of line_length (?a :: ?b)) with (line_length a + sum_of line_length b).
  all: rewrite IH; unfold line_length; cbn; lia.
Qed.
Lemma place_length es : forall b, List.length (place b es) = List.length es.
Proof. induction es as [|e es IH]; intros b; cbn; auto. Qed.
Lemma lexes_length U gs es : lexes U gs es -> List.length es <= List.length gs.
Proof.
  induction 1 as [|e rest es H L IH]; [auto|]. rewrite app_length. cbn.
  pose proof (lexeme_text_nonempty U e rest H). destruct (elem_text e); [congruence|]. cbn. lia.
Qed.

Theorem scan_bound U gs : sane U -> valid_source gs -> forall r, scan_tokens U gs = Done r ->
  match r with
  | Ok toks => List.length toks <= 2 * List.length gs + 1
  | Err errs => List.length errs <= List.length gs
  end.
Proof.
  intros Sn V r E. destruct (lexes_total U gs) as [es L]. rewrite (scan_correct U Sn gs es V L) in E.
  pose proof (lexes_length _ _ _ L) as LL. unfold scan_spec in E.
  destruct (layout _ _ _ _) as [[[toks errs] final]|] eqn:EL; [|discriminate].
  apply layout_bound in EL as [L1 L2]. rewrite split_length, place_length in L1, L2.
  cbn [List.length] in L1, L2.
  destruct errs as [|c errs]; injection E as <-; [|cbn [List.length] in *; lia].
  unfold closing. rewrite !app_length, repeat_length. cbn [List.length]. lia.
Qed.
