(** Printed trees are derived by the grammar. *)
From Verif Require Import Base F64 Token Ast AstInd SpecGrammar SpecTree SpecPrint ParseFirst.
From Coq Require Import Lia.

(** ** What may follow *)
Definition silent (r : list token) : Prop := ~ starts call_continues r /\ ~ starts [Colon] r.
Definition apart (r : list token) : Prop := ~ starts [Colon; Identifier; TString] r.
Lemma silent_apart : forall r, silent r -> apart r.
Proof. intros [|t r] [A B] H; [exact H|]. cbn in *. intuition congruence. Qed.
Lemma apart_colon : forall r, apart r -> ~ starts [Colon] r.
Proof. unfold apart. intros [|t r] A H; [exact H|]. cbn in *. tauto. Qed.
Lemma apart_entry : forall r, apart r -> ~ entry_here r.
Proof. intros r A (t & c & q & -> & I & _). apply A. cbn in *. tauto. Qed.
Definition calm (lv : nat) (r : list token) : Prop := silent r /\ forall n, lv < n -> no_operator n r.
Definition stop (r : list token) : Prop := silent r /\ (forall n, no_operator n r) /\ ~ starts [Equal] r.
Definition stoppers : list token_type :=
  [RightParen; RightBracket; RightBrace; Comma; Terminator; Outdent; Semicolon; Eof].
Lemma not_starts : forall ks t r, existsb (tt_eqb (t_type t)) ks = false -> ~ starts ks (t :: r).
Proof.
  intros ks t r E I. cbn in I. assert (X : existsb (tt_eqb (t_type t)) ks = true).
  { apply existsb_exists. exists (t_type t). split; auto. unfold tt_eqb. now destruct token_type_eq_dec. }
  congruence.
Qed.
Lemma stop_tok : forall t r, In (t_type t) stoppers -> stop (t :: r).
Proof.
  intros t r H. repeat split.
  - apply not_starts. cbn in H. repeat (destruct H as [<-|H]; [reflexivity|]). contradiction.
  - apply not_starts. cbn in H. repeat (destruct H as [<-|H]; [reflexivity|]). contradiction.
  - intros n. cbn [no_operator]. cbn in H.
    repeat (destruct H as [<-|H]; [destruct n as [|[|[|[|[|[|n]]]]]]; reflexivity|]). contradiction.
  - apply not_starts. cbn in H. repeat (destruct H as [<-|H]; [reflexivity|]). contradiction.
Qed.
Lemma stop_punct : forall k r, In k stoppers -> stop (punct k :: r).
Proof. intros. now apply stop_tok. Qed.
Lemma stop_calm : forall lv r, stop r -> calm lv r.
Proof. intros lv r (S & O & _). split; auto. Qed.
Lemma equal_calm : forall lv t r, t_type t = Equal -> calm lv (t :: r).
Proof.
  intros lv t r K. repeat split; try (apply not_starts; rewrite K; reflexivity).
  intros n _. cbn. rewrite K. destruct n as [|[|[|[|[|[|n]]]]]]; reflexivity.
Qed.

(** ** Subtrees *)
Definition WE (e : expr) : Prop := Forall well_formed_part (expr_parts e).
Definition WS (st : stmt) : Prop := Forall well_formed_part (parts st).
Definition WF (f : fun_def) : Prop := Forall well_formed_part (fun_parts f).
Definition open_b (b : bool) (strays : list stmt) : Prop := b = true \/ strays = nil.
Lemma open_app : forall b l l', open_b b (l ++ l') -> open_b b l /\ open_b b l'.
Proof. intros b l l' [->|E]; [split; now left|]. apply app_eq_nil in E. split; right; tauto. Qed.
Lemma forall_flat : forall A B (P : B -> Prop) (f : A -> list B) l,
  Forall P (flat_map f l) -> Forall (fun a => Forall P (f a)) l.
Proof.
  intros A B P f l. induction l as [|a l IH]; cbn; intros H; constructor; apply Forall_app in H; tauto.
Qed.
Lemma open_flat : forall A b (f : A -> list stmt) l, open_b b (flat_map f l) -> Forall (fun a => open_b b (f a)) l.
Proof.
  intros A b f l. induction l as [|a l IH]; cbn; intros H; constructor; apply open_app in H; tauto.
Qed.

Section Print.
Variable trailing : bool.
Notation D := (derives trailing).

Section Levels.
Variable b : bool.
Variable i : list token.
Variable e : expr.
Definition as_primary_of : Prop := forall r, apart r -> D b Primary (i ++ r) (VE e) r.
Definition as_call_of : Prop := forall r v r', apart r -> D b (CallTail e) r (VE v) r' ->
  D b Call (i ++ r) (VE v) r'.
Definition as_unary_of : Prop := forall r, silent r -> D b Unary (i ++ r) (VE e) r.
Definition as_binary_of (lv : nat) : Prop := forall r v r', calm lv r -> D b (BinaryTail lv e) r (VE v) r' ->
  D b (Binary lv) (i ++ r) (VE v) r'.
Definition as_expression_of : Prop := forall r, stop r -> D b Expression (i ++ r) (VE e) r.

Lemma primary_call : as_primary_of -> as_call_of.
Proof. intros H r v r' C T. eapply d_call; eauto. Qed.
Lemma call_unary : as_call_of -> as_unary_of.
Proof. intros H r R. apply d_unary_call. apply H; auto using silent_apart. apply d_call_end, R. Qed.
Lemma unary_binary : as_unary_of -> as_binary_of 5.
Proof.
  intros H r v r' [C N] T. eapply d_binary; [unfold top_level; lia| |exact T].
  apply d_binary_top. now apply H.
Qed.
Lemma binary_down : forall lv, S lv < top_level -> as_binary_of (S lv) -> as_binary_of lv.
Proof.
  intros lv L H r v r' [C N] T. eapply d_binary; [lia| |exact T]. apply H.
  - split; auto. intros n M. apply N. lia.
  - apply d_tail_end. apply N. lia.
Qed.
Lemma binary_all : forall lv, lv < top_level -> as_binary_of lv -> forall lv', lv' <= lv -> as_binary_of lv'.
Proof.
  induction lv as [|lv IH]; intros L H lv' M.
  - now replace lv' with 0 by lia.
  - destruct (Nat.eq_dec lv' (S lv)) as [->|NE]; auto. apply IH; try lia. now apply binary_down.
Qed.
Lemma binary_target : as_binary_of 0 -> forall r, calm 0 r -> no_operator 0 r -> D b Target (i ++ r) (VE e) r.
Proof. intros H r C N. apply d_target. apply H; auto. now apply d_tail_end. Qed.
Lemma binary_expression : as_binary_of 0 -> as_expression_of.
Proof.
  intros H r S. assert (C := stop_calm 0 r S). destruct S as (_ & O & E).
  apply d_expression; auto. now apply binary_target.
Qed.

(** Everything an expression of some strength can be used as. *)
Definition usable_of : Prop :=
  (8 <= strength e -> as_call_of) /\ (7 <= strength e -> as_unary_of) /\
  (forall lv, lv < top_level -> S lv <= strength e -> as_binary_of lv) /\ as_expression_of.
Lemma usable_call : strength e = 8 \/ strength e = 9 -> as_call_of -> usable_of.
Proof.
  intros S H. assert (U := call_unary H). assert (B := unary_binary U).
  assert (BA := binary_all 5 ltac:(unfold top_level; lia) B). repeat split; auto.
  - intros lv L _. apply BA. unfold top_level in L. lia.
  - apply binary_expression, BA. lia.
Qed.
Lemma usable_primary : strength e = 9 -> as_primary_of -> usable_of.
Proof. intros S H. apply usable_call; auto using primary_call. Qed.
Lemma usable_unary : strength e = 7 -> as_unary_of -> usable_of.
Proof.
  intros S U. assert (B := unary_binary U).
  assert (BA := binary_all 5 ltac:(unfold top_level; lia) B). repeat split; auto.
  - lia.
  - intros lv L _. apply BA. unfold top_level in L. lia.
  - apply binary_expression, BA. lia.
Qed.
Lemma usable_binary : forall n, n < top_level -> strength e = S n -> as_binary_of n -> usable_of.
Proof.
  intros n L S B. assert (BA := binary_all n L B). unfold top_level in L. repeat split; try lia.
  - intros lv _ M. apply BA. lia.
  - apply binary_expression, BA. lia.
Qed.
Lemma usable_expression : strength e = 0 -> as_expression_of -> usable_of.
Proof. intros S X. repeat split; auto; lia. Qed.
End Levels.
Notation as_primary b e := (as_primary_of b (print_expr e) e).
Notation as_call b e := (as_call_of b (print_expr e) e).
Notation as_unary b e := (as_unary_of b (print_expr e) e).
Notation as_binary b e := (as_binary_of b (print_expr e) e).
Notation as_expression b := (fun e => as_expression_of b (print_expr e) e).
Notation usable b e := (usable_of b (print_expr e) e).

(** ** Lists *)
Lemma then_punct : forall k r, token_then k (punct k :: r) r.
Proof. intros k r. exists (punct k). split; reflexivity. Qed.
Lemma then_tok : forall k x l r, token_then k (tok k x l :: r) r.
Proof. intros k x l r. exists (tok k x l). split; reflexivity. Qed.
Lemma then_name : forall x l r, name_then (name_tok x l) (name_tok x l :: r) r.
Proof. intros. split; reflexivity. Qed.
Lemma tloc_tok : forall k x l, tloc (tok k x l) = l.
Proof. now intros k x []. Qed.
Lemma commas_cons : forall a c r, commas (a :: c :: r) = a ++ punct Comma :: commas (c :: r).
Proof. reflexivity. Qed.

Lemma arguments_print : forall b es k r, Forall (as_expression b) es -> es <> nil ->
  In k [RightParen; RightBracket] ->
  D b Arguments (commas (map print_expr es) ++ punct k :: r) (VEs es) (punct k :: r).
Proof.
  intros b es k r F N K.
  assert (ST : In k stoppers) by (destruct K as [<-|[<-|[]]]; cbn; auto).
  induction es as [|e [|e2 es] IH]; [now elim N| |].
  - cbn. rewrite app_nil_r. inversion F as [|x y A B]; subst. apply d_arguments_one; [apply A; now apply stop_punct|].
    apply not_starts. destruct K as [<-|[<-|[]]]; reflexivity.
  - cbn [map]. rewrite commas_cons, <- app_assoc. cbn [app]. inversion F as [|x y A B]; subst.
    eapply d_arguments_more; [apply A; apply stop_punct; cbn; auto 10|apply then_punct|].
    apply IH; auto. discriminate.
Qed.
Lemma elements_print : forall b es r, Forall (as_expression b) es -> es <> nil ->
  D b Elements (commas (map print_expr es) ++ punct RightBracket :: r) (VEs es) (punct RightBracket :: r).
Proof.
  intros b es r F N.
  induction es as [|e [|e2 es] IH]; [now elim N| |].
  - cbn. rewrite app_nil_r. inversion F as [|x y A B]; subst. apply d_elements_one; [apply A; apply stop_punct; cbn; auto|].
    apply not_starts. reflexivity.
  - cbn [map]. rewrite commas_cons, <- app_assoc. cbn [app]. inversion F as [|x y A B]; subst.
    eapply d_elements_more; [apply A; apply stop_punct; cbn; auto 10|apply then_punct|].
    apply IH; auto. discriminate.
Qed.
Definition print_entry (kv : string * expr) : list token :=
  match kv with (k, a) => string_tok k :: punct Colon :: print_expr a end.
Lemma entries_print : forall b m r, Forall (fun kv => as_expression b (snd kv)) m ->
  D b Entries (commas (map print_entry m) ++ punct RightBrace :: r) (VM m) (punct RightBrace :: r).
Proof.
  intros b m r F.
  assert (K : forall k, key_of (string_tok k) k) by (intros k; right; split; reflexivity).
  induction m as [|[k e] [|kv2 m] IH].
  - apply d_entries_none. intros (t & c & q & E & I & _). injection E as <- _. cbn in I. intuition discriminate.
  - cbn. rewrite app_nil_r. inversion F as [|x y A B]; subst. cbn in A.
    eapply d_entries_last; [apply K|reflexivity|apply A; apply stop_punct; cbn; auto|].
    intros r' [(t & E & T)|[(t & E & T) _]]; injection E as <- _; discriminate.
  - cbn [map]. rewrite commas_cons, <- app_assoc. cbn [app print_entry]. inversion F as [|x y A B]; subst. cbn in A.
    eapply d_entries_more; [apply K|reflexivity|apply A; apply stop_punct; cbn; auto 10|left; apply then_punct|].
    now apply IH.
Qed.
Lemma parameters_print : forall b ps r, ps <> nil ->
  D b Parameters (print_params ps ++ punct RightParen :: r) (VPs ps) (punct RightParen :: r).
Proof.
  intros b ps r N. unfold print_params.
  assert (E : forall p, p = mkParam (t_lexeme (name_tok (p_name p) (p_loc p))) (tloc (name_tok (p_name p) (p_loc p)))).
  { intros [x []]. reflexivity. }
  induction ps as [|p [|p2 ps] IH]; [now elim N| |].
  - cbn [map commas app]. replace (VPs [p]) with (VPs [mkParam (t_lexeme (name_tok (p_name p) (p_loc p))) (tloc (name_tok (p_name p) (p_loc p)))]) by now rewrite <- E. apply d_parameters_one; [apply then_name|].
    apply not_starts. reflexivity.
  - cbn [map]. rewrite commas_cons, <- app_assoc. cbn [app].
    replace (VPs (p :: p2 :: ps)) with (VPs (mkParam (t_lexeme (name_tok (p_name p) (p_loc p))) (tloc (name_tok (p_name p) (p_loc p))) :: p2 :: ps)) by now rewrite <- E.
    eapply d_parameters_more; [apply then_name|apply then_punct|]. apply IH. discriminate.
Qed.

(** ** Statements in sequence *)
Definition ready (st : stmt) (r : list token) : Prop := open_if st = true -> ~ starts [Else] r.
Definition as_declaration (b : bool) (st : stmt) : Prop :=
  forall r, ready st r -> D b Declaration (print_stmt st ++ r) (VS st) r.
Definition as_statement (b : bool) (st : stmt) : Prop :=
  forall r, ready st r -> D b Statement (print_stmt st ++ r) (VS st) r /\
                          D b Branch (print_stmt st ++ r) (VS st) r.
Lemma sequence : forall b l r, Forall (as_declaration b) l -> ~ starts [Else] r ->
  forall l' r', (forall i, i = r -> D b (Statements RightBrace) i (VSs l') r') ->
  ~ starts [Else] (flat_map print_stmt l ++ r) /\
  D b (Statements RightBrace) (flat_map print_stmt l ++ r) (VSs (l ++ l')) r'.
Proof.
  intros b l r F N l' r' H. induction F as [|st l A F IH]; cbn [flat_map app].
  - split; auto.
  - destruct IH as [NE IH]. rewrite <- app_assoc.
    assert (X := A (flat_map print_stmt l ++ r) ltac:(intros _; exact NE)). split.
    + eapply not_first; [exact X|discriminate|reflexivity].
    + eapply d_statements_more; [exact X|exact IH].
Qed.
Lemma body_print : forall b l r, Forall (as_declaration b) l ->
  D b (Statements RightBrace) (flat_map print_stmt l ++ punct RightBrace :: r) (VSs l) r.
Proof.
  intros b l r F. rewrite <- (app_nil_r l) at 2.
  apply (sequence b l (punct RightBrace :: r) F).
  - apply not_starts. reflexivity.
  - intros i ->. apply d_statements_end. apply then_punct.
Qed.
Lemma program_print : forall b l, Forall (as_declaration b) l ->
  D b Program (print_program l) (VSs l) [punct Eof].
Proof.
  intros b l F. unfold print_program.
  assert (X : ~ starts [Else] (flat_map print_stmt l ++ [punct Eof]) /\
    D b Program (flat_map print_stmt l ++ [punct Eof]) (VSs l) [punct Eof]).
  { induction F as [|st l A F IH]; cbn [flat_map app].
    - split; [apply not_starts; reflexivity|]. apply d_program_end. cbn. auto.
    - destruct IH as [NE IH]. rewrite <- app_assoc.
      assert (X := A _ ltac:(intros _; exact NE)). split.
      + eapply not_first; [exact X|discriminate|reflexivity].
      + eapply d_program_more; [exact X|exact IH]. }
  apply X.
Qed.

(** ** Expressions that do not start with a brace *)
Lemma brace_start : forall e, exists t q, print_expr e = t :: q /\
  (brace_first e = false -> t_type t <> LeftBrace).
Proof.
  assert (A : (forall st : stmt, True) /\ (forall e, exists t q, print_expr e = t :: q /\
    (brace_first e = false -> t_type t <> LeftBrace)) /\ (forall c : class_def, True) /\ (forall f : fun_def, True)).
  { apply tree_ind; auto; intros; cbn [print_expr brace_first app];
      repeat match goal with H : exists t q, print_expr ?a = _ /\ _ |- context [print_expr ?a ++ _] =>
        destruct H as (?t & ?q & -> & ?H) end; cbn [app]; eauto;
      try (eexists _, _; split; [reflexivity|]; intros E; try discriminate E; try discriminate; auto; fail).
    all: eexists _, _; split; [reflexivity|]; intros E;
      match goal with
      | |- context [String.eqb ?x "this"] => cbn; destruct (String.eqb x "this"); discriminate
      | op : unary_op |- _ => destruct op; discriminate
      | b : bool |- _ => destruct b; discriminate
      end. }
  apply A.
Qed.

Lemma no_brace : forall e r, brace_first e = false -> ~ starts [LeftBrace] (print_expr e ++ r).
Proof.
  intros e r B. destruct (brace_start e) as (t & q & -> & H). cbn. intros [E|[]]. now apply (H B).
Qed.

(** ** Expressions *)
Definition Pe (e : expr) : Prop := forall b, WE e -> open_b b (expr_strays e) -> usable b e.
Definition Pf (f : fun_def) : Prop := forall b, WF f -> open_b b (fun_strays f) ->
  forall r, D b (Function (fun_loc f)) (print_fun f ++ r) (VF (with_kind PlainFunction f)) r.
Definition Ps (st : stmt) : Prop := forall b, WS st -> open_b b (strays st) ->
  as_declaration b st /\ (is_declaration st = false -> as_statement b st).
Definition Pc (c : class_def) : Prop := forall b, WS (SClass c) -> open_b b (class_strays c) ->
  as_declaration b (SClass c).

Lemma all_usable : forall b es, Forall Pe es -> Forall well_formed_part (flat_map expr_parts es) ->
  open_b b (flat_map expr_strays es) -> Forall (as_expression b) es.
Proof.
  intros b es F W O. apply forall_flat in W. apply open_flat in O.
  induction F as [|e es H F IH]; constructor; inversion W; inversion O; subst; [|auto].
  now apply H.
Qed.

Ltac we W := unfold WE, WS, WF in W; cbn [expr_parts parts fun_parts class_parts] in W;
  apply Forall_cons_iff in W; destruct W as [?P W].
Ltac parts_split := repeat match goal with
  | H : Forall _ (_ ++ _) |- _ => apply Forall_app in H; destruct H
  | H : open_b _ (_ ++ _) |- _ => apply open_app in H; destruct H end.

Lemma loc_of : forall k x l, l = tloc (tok k x l).
Proof. now intros k x []. Qed.

(** An operator of level [lv] after [a]. *)
Lemma binary_case : forall b lv i a t e2 f, lv < top_level ->
  operator lv (t_type t) = Some f -> (forall r, ~ starts call_continues (t :: r) /\ ~ starts [Colon] (t :: r)) ->
  (forall n r, lv < n -> no_operator n (t :: r)) ->
  as_binary_of b i a lv -> (forall r, calm lv r -> D b (Binary (S lv)) (print_expr e2 ++ r) (VE e2) r) ->
  as_binary_of b (i ++ t :: print_expr e2) (f a (tloc t) e2) lv.
Proof.
  intros b lv i a t e2 f L O S N A B r v r' C T. rewrite <- app_assoc. cbn [app].
  apply A; [split; [apply S|auto]|]. eapply d_tail_more; eauto.
Qed.
Lemma next_level : forall b e lv, lv < top_level -> usable b e -> lv + 1 < strength e ->
  forall r, calm lv r -> D b (Binary (S lv)) (print_expr e ++ r) (VE e) r.
Proof.
  intros b e lv L (_ & U & B & _) SE r [C N].
  destruct (Nat.eq_dec (S lv) top_level) as [E|E].
  - rewrite E. apply d_binary_top. apply U; auto. unfold top_level in E. injection E as ->. exact SE.
  - apply B; try lia.
    + split; auto. intros n M. apply N. lia.
    + apply d_tail_end. apply N. lia.
Qed.

Lemma binary_of : forall b i a op e2 l, usable_of b i a -> usable b e2 ->
  strength (EBinary a op e2 l) <= strength a -> strength (EBinary a op e2 l) < strength e2 ->
  usable_of b (i ++ tok (binary_token op) "" l :: print_expr e2) (EBinary a op e2 l).
Proof.
  intros b i a op e2 l UA UB SA SB.
  set (lv := strength (EBinary a op e2 l) - 1).
  assert (LV : strength (EBinary a op e2 l) = S lv) by (unfold lv; destruct op; reflexivity).
  assert (LT : lv < top_level) by (unfold lv, top_level; destruct op; cbn; lia).
  apply usable_binary with (n := lv); auto.
  set (t := tok (binary_token op) "" l).
  assert (OP : operator lv (t_type t) = Some (fun a l b => EBinary a op b l)) by (destruct op; reflexivity).
  assert (NX : forall r, calm lv r -> D b (Binary (S lv)) (print_expr e2 ++ r) (VE e2) r).
  { apply next_level; auto. lia. }
  assert (LA : as_binary_of b i a lv) by (apply UA; auto; lia).
  assert (X := binary_case b lv i a t e2 _ LT OP).
  assert (TL : tloc t = l) by apply tloc_tok. cbv beta in X. rewrite TL in X. apply X; auto.
  - intros r. split; apply not_starts; destruct op; reflexivity.
  - intros n r M. unfold lv in M. destruct op; destruct n as [|[|[|[|[|[|n]]]]]]; cbn in M; try lia; reflexivity.
Qed.

Lemma logical_of : forall b i a op e2, usable_of b i a -> usable b e2 ->
  strength (ELogical a op e2) <= strength a -> strength (ELogical a op e2) < strength e2 ->
  usable_of b (i ++ punct (match op with LAnd => And | LOr => Or end) :: print_expr e2) (ELogical a op e2).
Proof.
  intros b i a op e2 UA UB SA SB.
  set (lv := strength (ELogical a op e2) - 1).
  assert (LV : strength (ELogical a op e2) = S lv) by (unfold lv; destruct op; reflexivity).
  assert (LT : lv < top_level) by (unfold lv, top_level; destruct op; cbn; lia).
  apply usable_binary with (n := lv); auto.
  set (t := punct (match op with LAnd => And | LOr => Or end)).
  assert (OP : operator lv (t_type t) = Some (fun a _ b => ELogical a op b)) by (destruct op; reflexivity).
  assert (NX : forall r, calm lv r -> D b (Binary (S lv)) (print_expr e2 ++ r) (VE e2) r).
  { apply next_level; auto. lia. }
  assert (LA : as_binary_of b i a lv) by (apply UA; auto; lia).
  assert (X := binary_case b lv i a t e2 _ LT OP).
  cbv beta in X. apply X; auto.
  - intros r. split; apply not_starts; destruct op; reflexivity.
  - intros n r M. unfold lv in M. destruct op; destruct n as [|[|[|[|[|[|n]]]]]]; cbn in M; try lia; reflexivity.
Qed.
Lemma Pe_unary : forall op e l, Pe e -> Pe (EUnary op e l).
Proof.
  intros op e l IH b W O. we W. cbn [expr_strays] in O.
  destruct P as [[SA _] _]. cbn [operands_bind precedence_ok] in SA.
  apply usable_unary; auto. intros r R. cbn [print_expr app].
  set (t := tok (unary_token op) "" l). assert (TL : tloc t = l) by apply tloc_tok. rewrite <- TL.
  apply d_unary; [destruct op; reflexivity|]. now apply IH.
Qed.
Lemma get_of : forall b i e p l, usable_of b i e -> 8 <= strength e ->
  usable_of b (i ++ tok Dot "" l :: [name_tok p nowhere]) (EGet e p l).
Proof.
  intros b i e p l H SA.
  apply usable_call; auto. intros r v r' C T. rewrite <- app_assoc. cbn [app].
  apply H; auto. { apply not_starts. reflexivity. }
  eapply d_call_get; [reflexivity|apply then_name|]. now rewrite tloc_tok.
Qed.
Lemma index_of : forall b i e x l, usable_of b i e -> usable b x -> 8 <= strength e ->
  usable_of b (i ++ tok LeftBracket "" l :: print_expr x ++ [punct RightBracket]) (EGetIndex e x l).
Proof.
  intros b i e x l H HX SA.
  apply usable_call; auto. intros r v r' C T. rewrite <- app_assoc. cbn [app].
  rewrite <- app_assoc. cbn [app].
  apply H; auto. { apply not_starts. reflexivity. }
  eapply d_call_index; [reflexivity| |apply then_punct|].
  - apply HX; auto. apply stop_punct. cbn. auto.
  - now rewrite tloc_tok.
Qed.
Lemma call_of : forall b i f args l, usable_of b i f -> Forall (as_expression b) args -> 8 <= strength f ->
  length args <= max_parameters ->
  usable_of b (i ++ tok LeftParenAbutting "" l :: commas (map print_expr args) ++ [punct RightParen]) (ECall f args l).
Proof.
  intros b i f args l H HA SA LM.
  apply usable_call; auto. intros r v r' C T. rewrite <- app_assoc. cbn [app].
  rewrite <- app_assoc. cbn [app].
  apply H; auto. { apply not_starts. reflexivity. }
  destruct args as [|a args].
  - cbn [map commas app]. eapply d_call_none; [reflexivity|apply then_punct|]. now rewrite tloc_tok.
  - eapply d_call_paren; [reflexivity|apply arguments_print| |apply then_punct|].
    + exact HA.
    + discriminate.
    + cbn. auto.
    + exact LM.
    + now rewrite tloc_tok.
Qed.
(** Expressions that start with a map that is not empty, written without its braces. *)
Definition open_first (e : expr) : Prop := brace_first e = true /\ empty_first e = false.
Definition Po (e : expr) : Prop := Pe e /\
  forall b, WE e -> open_b b (expr_strays e) -> open_first e -> usable_of b (print_open e) e.
Lemma closed : forall e, Pe e -> brace_first e = false -> Po e.
Proof. intros e H B. split; auto. intros b _ _ [E _]. congruence. Qed.

Lemma Po_binary : forall a op e2 l, Po a -> Pe e2 -> Po (EBinary a op e2 l).
Proof.
  intros a op e2 l [IA OA] IB. split; intros b W O; [|intros F]; we W; cbn [expr_strays] in O; parts_split;
  destruct P as [[[SA SB] _] _]; cbn [operands_bind precedence_ok] in SA, SB; apply binary_of; auto.
Qed.
Lemma Po_logical : forall a op e2, Po a -> Pe e2 -> Po (ELogical a op e2).
Proof.
  intros a op e2 [IA OA] IB. split; intros b W O; [|intros F]; we W; cbn [expr_strays] in O; parts_split;
  destruct P as [[[SA SB] _] _]; cbn [operands_bind precedence_ok] in SA, SB; apply logical_of; auto.
Qed.
Lemma Po_get : forall e p l, Po e -> Po (EGet e p l).
Proof.
  intros e p l [IH OH]. split; intros b W O; [|intros F]; we W; cbn [expr_strays] in O;
  destruct P as [[SA _] _]; cbn [operands_bind precedence_ok] in SA; apply get_of; auto.
Qed.
Lemma Po_index : forall e x l, Po e -> Pe x -> Po (EGetIndex e x l).
Proof.
  intros e x l [IH OH] IX. split; intros b W O; [|intros F]; we W; cbn [expr_strays] in O; parts_split;
  destruct P as [[SA _] _]; cbn [operands_bind precedence_ok] in SA; apply index_of; auto.
Qed.
Lemma Po_call : forall f args l, Po f -> Forall Pe args -> Po (ECall f args l).
Proof.
  intros f args l [IH OH] IA. split; intros b W O; [|intros F]; we W; cbn [expr_strays] in O; parts_split;
  destruct P as [[SA [LM _]] _]; cbn [operands_bind precedence_ok within_limits] in SA, LM;
  apply call_of; auto using all_usable.
Qed.
Lemma Pe_grouping : forall e, Pe e -> Pe (EGrouping e).
Proof.
  intros e IH b W O. we W. apply usable_primary; auto. intros r C.
  cbn [print_expr app]. rewrite <- app_assoc. cbn [app].
  eapply d_grouping; [left; apply then_punct| |apply then_punct]. apply IH; auto. apply stop_punct. cbn. auto.
Qed.
Lemma Pe_array : forall es, Forall Pe es -> Pe (EArray es).
Proof.
  intros es IH b W O. we W. apply usable_primary; auto. intros r C.
  cbn [print_expr app]. rewrite <- app_assoc. cbn [app].
  destruct es as [|e es].
  - eapply d_array_empty; apply then_punct.
  - eapply d_array; [apply then_punct|apply elements_print|apply then_punct].
    + now apply all_usable.
    + discriminate.
Qed.
Lemma Pe_map : forall m, Forall (fun kv => Pe (snd kv)) m -> Pe (EMap m).
Proof.
  intros m IH b W O. we W. destruct P as [(_ & _ & ND & _) _]. cbn in ND.
  apply usable_primary; auto. intros r C.
  cbn [print_expr app]. rewrite <- app_assoc. cbn [app]. fold print_entry.
  eapply d_brace_map; [apply then_punct|apply entries_print|exact ND|apply then_punct].
  cbn [expr_strays] in O. apply forall_flat in W. apply open_flat in O.
  clear ND. induction IH as [|[k e] m H F IH]; constructor; inversion W; inversion O; subst; auto.
  now apply H.
Qed.
Lemma entries_open : forall b m r, Forall (fun kv => as_expression b (snd kv)) m -> m <> nil -> apart r ->
  D b Entries (commas (map print_entry m) ++ punct Comma :: r) (VM m) r.
Proof.
  intros b m r F N A.
  assert (K : forall k, key_of (string_tok k) k) by (intros k; right; split; reflexivity).
  induction m as [|[k e] [|kv2 m] IH]; [now elim N| |].
  - cbn. rewrite app_nil_r. inversion F as [|x y X Y]; subst. cbn in X.
    eapply d_entries_more; [apply K|reflexivity|apply X; apply stop_punct; cbn; auto 10|left; apply then_punct|].
    apply d_entries_none. now apply apart_entry.
  - cbn [map]. rewrite commas_cons, <- app_assoc. cbn [app print_entry]. inversion F as [|x y X Y]; subst. cbn in X.
    eapply d_entries_more; [apply K|reflexivity|apply X; apply stop_punct; cbn; auto 10|left; apply then_punct|].
    apply IH; auto. discriminate.
Qed.
Lemma Po_map : forall m, Forall (fun kv => Pe (snd kv)) m -> Po (EMap m).
Proof.
  intros m IH. split; [now apply Pe_map|]. intros b W O [_ N]. we W. destruct P as [(_ & _ & ND & _) _]. cbn in ND.
  apply usable_primary; auto. intros r C.
  cbn [print_open]. rewrite <- app_assoc. cbn [app]. fold print_entry.
  cbn [empty_first] in N.
  assert (NE : m <> nil) by (intros ->; discriminate).
  apply d_bare_map; auto.
  - destruct m as [|[k e] [|kv m]]; [congruence| |]; cbn; do 3 eexists; (split; [reflexivity|]); cbn; auto.
  - apply entries_open; auto.
    cbn [expr_strays] in O. apply forall_flat in W. apply open_flat in O.
    clear ND N NE. induction IH as [|[k e] m H F IH]; constructor; inversion W; inversion O; subst; auto.
    now apply H.
Qed.
Lemma Pe_function : forall f, Pf f -> Pe (EFunction f).
Proof.
  intros f IH b W O. we W. destruct P as [_ (K & _)]. cbn in K.
  apply usable_primary; auto. intros r C. cbn [print_expr app].
  replace (EFunction f) with (EFunction (with_kind PlainFunction f)) by (destruct f; cbn in *; now subst).
  apply d_function; [reflexivity|]. rewrite tloc_tok. now apply IH.
Qed.
Lemma Pe_bool : forall x, Pe (EBool x).
Proof. intros [] b _ _; apply usable_primary; auto; intros r C; now constructor. Qed.
Lemma Pe_nil : Pe ENil.
Proof. intros b _ _. apply usable_primary; auto. intros r C. now constructor. Qed.
Lemma Pe_number : forall x, Pe (ENumber x).
Proof. intros x b _ _. apply usable_primary; auto. intros r C. now constructor. Qed.
Lemma Pe_string : forall x, Pe (EString x).
Proof. intros x b _ _. apply usable_primary; auto. intros r C. apply d_string; auto using apart_colon. Qed.
Lemma Pe_super : forall v m l, Pe (ESuper v m l).
Proof.
  intros v m l b W O. we W. destruct P as [_ (_ & _ & U & _)]. cbn in U. subst v.
  apply usable_primary; auto. intros r C. cbn [print_expr app].
  replace (ESuper (VarLoc 0 0) m l) with
    (ESuper var_placeholder (t_lexeme (name_tok m nowhere)) (tloc (tok Super "super" l))) by now destruct l.
  eapply d_super; [reflexivity|apply then_punct|apply then_name].
Qed.
Lemma Pe_variable : forall x v l, Pe (EVariable x v l).
Proof.
  intros x v l b W O. we W. destruct P as [_ (_ & _ & U & _)]. cbn in U. subst v.
  apply usable_primary; auto. intros r C. cbn [print_expr app].
  set (t := tok (if String.eqb x "this" then This else Identifier) x l).
  replace (EVariable x (VarLoc 0 0) l) with
    (EVariable (t_lexeme t) var_placeholder (tloc t)) by now destruct l.
  apply d_variable; auto using apart_colon. unfold t. cbn. destruct (String.eqb x "this"); auto.
Qed.
Lemma Pe_assign : forall x v e l, Pe e -> Pe (EAssign x v e l).
Proof.
  intros x v e l IH b W O. we W. destruct P as [(_ & _ & _ & A) (_ & _ & U & _)]. cbn in A, U. subst v.
  apply usable_expression; auto. intros r C. cbn [print_expr app].
  eapply d_assignment with (e := EVariable x var_placeholder nowhere) (t := tok Equal "=" l); [|reflexivity|now apply IH|].
  - assert (E : EVariable x var_placeholder nowhere =
                EVariable (t_lexeme (name_tok x nowhere)) var_placeholder (tloc (name_tok x nowhere))) by reflexivity.
    assert (P : as_primary b (EVariable x var_placeholder nowhere)).
    { intros q Q. cbn [print_expr app]. apply String.eqb_neq in A. rewrite A, E. apply d_variable; cbn; auto using apart_colon. }
    assert (US := usable_primary b _ (EVariable x var_placeholder nowhere) eq_refl P).
    assert (B := binary_target b (print_expr (EVariable x var_placeholder nowhere)) (EVariable x var_placeholder nowhere)).
    cbn [print_expr] in B, US. assert (A' := A). apply String.eqb_neq in A. rewrite A in B, US. apply B.
    + apply US; [unfold top_level; lia|cbn; lia].
    + now apply equal_calm.
    + reflexivity.
  - apply String.eqb_neq in A. cbn. rewrite A. now destruct l.
Qed.
(** The targets of the other assignments. *)
Lemma set_of : forall b i o p e l, usable_of b i o -> 8 <= strength o -> usable b e ->
  usable_of b (i ++ punct Dot :: name_tok p nowhere :: tok Equal "=" l :: print_expr e) (ESet o p e l).
Proof.
  intros b i o p e l UO S8 UE. apply usable_expression; auto. intros r C. rewrite <- app_assoc. cbn [app].
  eapply d_assignment with (e := EGet o p nowhere) (t := tok Equal "=" l); [|reflexivity|now apply UE|].
  - assert (B := binary_target b (i ++ punct Dot :: [name_tok p nowhere]) (EGet o p nowhere)
      ltac:(apply (get_of b i o p nowhere UO S8); [unfold top_level; lia|cbn; lia])
                   (tok Equal "=" l :: print_expr e ++ r)).
    rewrite <- app_assoc in B. cbn [app] in B. apply B; [now apply equal_calm|reflexivity].
  - cbn. now destruct l.
Qed.
Lemma set_index_of : forall b i o x e l, usable_of b i o -> 8 <= strength o -> usable b x -> usable b e ->
  usable_of b (i ++ punct LeftBracket :: print_expr x ++ punct RightBracket :: tok Equal "=" l :: print_expr e)
    (ESetIndex o x e l).
Proof.
  intros b i o x e l UO S8 UX UE. apply usable_expression; auto. intros r C. rewrite <- app_assoc. cbn [app].
  rewrite <- app_assoc. cbn [app].
  eapply d_assignment with (e := EGetIndex o x nowhere) (t := tok Equal "=" l); [|reflexivity|now apply UE|].
  - assert (B := binary_target b (i ++ punct LeftBracket :: print_expr x ++ [punct RightBracket]) (EGetIndex o x nowhere)
      ltac:(apply (index_of b i o x nowhere UO UX S8); [unfold top_level; lia|cbn; lia])
                   (tok Equal "=" l :: print_expr e ++ r)).
    rewrite <- app_assoc in B. cbn [app] in B. rewrite <- app_assoc in B. cbn [app] in B.
    apply B; [now apply equal_calm|reflexivity].
  - cbn. now destruct l.
Qed.
Lemma Po_set : forall o p e l, Po o -> Pe e -> Po (ESet o p e l).
Proof.
  intros o p e l [IO OO] IE. split; intros b W O; [|intros F]; we W; cbn [expr_strays] in O; parts_split;
  destruct P as [[SA _] _]; cbn [operands_bind precedence_ok] in SA; apply set_of; auto.
Qed.
Lemma Po_set_index : forall o x e l, Po o -> Pe x -> Pe e -> Po (ESetIndex o x e l).
Proof.
  intros o x e l [IO OO] IX IE. split; intros b W O; [|intros F]; we W; cbn [expr_strays] in O; parts_split;
  destruct P as [[SA _] _]; cbn [operands_bind precedence_ok] in SA; apply set_index_of; auto.
Qed.

(** ** Functions *)
Lemma all_declarations : forall b l, Forall Ps l -> Forall well_formed_part (flat_map parts l) ->
  open_b b (flat_map strays l) -> Forall (as_declaration b) l.
Proof.
  intros b es F W O. apply forall_flat in W. apply open_flat in O.
  induction F as [|e es H F IH]; constructor; inversion W; inversion O; subst; [|auto].
  now apply H.
Qed.
Lemma Pf_fun : forall ps body k l, Forall Ps body -> Pf (FunDef ps body k l).
Proof.
  intros ps body k l IH b W O r. we W. destruct P as [(_ & LM & _) _]. cbn [within_limits] in LM.
  cbn [fun_strays] in O. cbn [print_fun fun_loc with_kind app].
  assert (BL : D b Block (punct LeftBrace :: flat_map print_stmt body ++ punct RightBrace :: r) (VSs body) r).
  { eapply d_block; [now apply opens_brace|]. apply body_print. now apply all_declarations. }
  rewrite <- app_assoc. cbn [app]. rewrite <- app_assoc. cbn [app].
  destruct ps as [|p ps].
  - eapply d_function_none; [left; apply then_punct|apply then_punct|exact BL].
  - eapply d_function_some; [left; apply then_punct|apply parameters_print; discriminate|exact LM|apply then_punct|exact BL].
Qed.

(** ** Statements *)
Lemma statement_all : forall b st, as_statement b st -> is_declaration st = false ->
  as_declaration b st /\ (is_declaration st = false -> as_statement b st).
Proof. intros b st A _. split; auto. intros r R. apply d_statement. now apply A. Qed.
Lemma declaration_all : forall b st, is_declaration st = true -> as_declaration b st ->
  as_declaration b st /\ (is_declaration st = false -> as_statement b st).
Proof. intros b st E A. split; auto. congruence. Qed.
Lemma not_brace : forall b st, (exists t q, print_stmt st = t :: q /\ t_type t <> LeftBrace) ->
  (forall r, ready st r -> D b Statement (print_stmt st ++ r) (VS st) r) -> as_statement b st.
Proof.
  intros b st (t & q & E & N) H r R. split; auto. apply d_branch_statement; auto.
  rewrite E. cbn. intros [X|[]]. congruence.
Qed.

Lemma Ps_block : forall l, Forall Ps l -> Ps (SBlock l).
Proof.
  intros l IH b W O. we W. cbn [strays] in O. apply statement_all; auto. intros r R.
  cbn [print_stmt app]. rewrite <- app_assoc. cbn [app].
  assert (B : D b (Statements RightBrace) (flat_map print_stmt l ++ punct RightBrace :: r) (VSs l) r).
  { apply body_print. now apply all_declarations. }
  split.
  - eapply d_block_statement; [apply then_punct|exact B].
  - apply d_branch_block. eapply d_block; [now apply opens_brace|exact B].
Qed.
Lemma Ps_break : forall l, Ps (SBreak l).
Proof.
  intros l b W [->|O]; [|discriminate]. apply statement_all; auto.
  apply not_brace; [do 2 eexists; split; [reflexivity|discriminate]|]. intros r R. cbn [print_stmt app].
  rewrite (loc_of Break "break" l) at 2. apply d_break; [reflexivity|apply then_punct].
Qed.
Lemma Ps_continue : forall l, Ps (SContinue l).
Proof.
  intros l b W [->|O]; [|discriminate]. apply statement_all; auto.
  apply not_brace; [do 2 eexists; split; [reflexivity|discriminate]|]. intros r R. cbn [print_stmt app].
  rewrite (loc_of Continue "continue" l) at 2. apply d_continue; [reflexivity|apply then_punct].
Qed.
Lemma Ps_print : forall e, Pe e -> Ps (SPrint e).
Proof.
  intros e IH b W O. we W. apply statement_all; auto.
  apply not_brace; [do 2 eexists; split; [reflexivity|discriminate]|]. intros r R. cbn [print_stmt app].
  rewrite <- app_assoc. cbn [app].
  eapply d_print; [apply then_punct|apply IH; auto; apply stop_punct; cbn; auto 10|apply then_punct].
Qed.
Lemma Ps_return : forall e l, Pe e -> Ps (SReturn e l).
Proof.
  intros e l IH b W O. we W. apply statement_all; auto.
  apply not_brace; [do 2 eexists; split; [reflexivity|discriminate]|]. intros r R. cbn [print_stmt app].
  rewrite <- app_assoc. cbn [app].
  rewrite (loc_of Return "return" l) at 2.
  eapply d_return; [reflexivity|apply IH; auto; apply stop_punct; cbn; auto 10|apply then_punct].
Qed.
Lemma Ps_var : forall x s e l, Pe e -> Ps (SVar x s e l).
Proof.
  intros x s e l IH b W O. we W. destruct P as [_ (_ & _ & U & _)]. cbn in U. subst s.
  apply declaration_all; auto. intros r R. cbn [print_stmt app].
  rewrite <- app_assoc. cbn [app].
  eapply d_var; [apply then_punct|].
  replace (SVar x (SlotIndex 255) e l) with
    (SVar (t_lexeme (name_tok x l)) slot_placeholder e (tloc (name_tok x l))) by now destruct l.
  destruct (IH b W O) as (_ & _ & _ & X).
  assert (X' := X (newline :: r) ltac:(apply stop_punct; cbn; auto 10)).
  eapply d_var_init; [apply then_name|apply then_punct|apply opt_none|exact X'|left; apply then_punct].
  eapply not_first; [exact X'|discriminate|reflexivity].
Qed.
Lemma Ps_fun : forall x f, Pf f -> Ps (SFun (NamedFun x f)).
Proof.
  intros x f IH b W O. we W. destruct P as [_ (K & _)]. cbn in K.
  apply declaration_all; auto. intros r R. cbn [print_stmt app].
  replace (SFun (NamedFun x f)) with (SFun (NamedFun (t_lexeme (name_tok x (fun_loc f))) (with_kind PlainFunction f)))
    by (destruct f; cbn in *; now subst).
  eapply d_fun; [apply then_punct|apply then_name|]. unfold name_tok. rewrite tloc_tok. now apply IH.
Qed.
Lemma if_parts : forall b c r, Pe c -> WE c -> open_b b (expr_strays c) ->
  D b Expression (print_expr c ++ punct RightParen :: r) (VE c) (punct RightParen :: r).
Proof. intros b c r H W O. apply H; auto. apply stop_punct. cbn. auto. Qed.
Lemma Ps_if : forall c t o, Pe c -> Ps t -> Popt Ps o -> Ps (SIf c t o).
Proof.
  intros c t o IC IT IO b W O. we W. cbn [strays] in O. parts_split.
  destruct P as [_ (_ & _ & _ & EN & BO)].
  apply statement_all; auto.
  apply not_brace; [do 2 eexists; split; [reflexivity|discriminate]|]. intros r R. cbn [print_stmt app].
  rewrite <- app_assoc. cbn [app]. rewrite <- app_assoc.
  destruct o as [e|]; cbn [Popt else_nearest branches_ok app] in *.
  - eapply d_if_else; [apply then_punct|left; apply then_punct|now apply if_parts|apply then_punct| |apply then_punct|].
    + apply IT; auto; try tauto. intros X. congruence.
    + apply IO; auto; tauto.
  - eapply d_if; [apply then_punct|left; apply then_punct|now apply if_parts|apply then_punct| |now apply R].
    apply IT; auto. intros X. now apply R.
Qed.
Lemma Ps_while : forall c st, Pe c -> Ps st -> Ps (SWhile c st).
Proof.
  intros c st IC IT b W O. we W. cbn [strays] in O. parts_split.
  destruct P as [_ (_ & _ & _ & EN & BO)].
  apply statement_all; auto.
  apply not_brace; [do 2 eexists; split; [reflexivity|discriminate]|]. intros r R. cbn [print_stmt app].
  rewrite <- app_assoc. cbn [app].
  eapply d_while; [apply then_punct|left; apply then_punct|now apply if_parts|apply then_punct|].
  apply (IT true); auto. now left.
Qed.
Lemma Ps_while_increment : forall c st e, Pe c -> Ps st -> Pe e -> Ps (SWhileIncrement c st e).
Proof.
  intros c st e IC IT IE b W O. we W. cbn [strays] in O. parts_split.
  destruct P as [_ (_ & _ & _ & EN & BO)].
  apply statement_all; auto.
  apply not_brace; [do 2 eexists; split; [reflexivity|discriminate]|]. intros r R. cbn [print_stmt app].
  rewrite <- app_assoc. cbn [app]. rewrite <- app_assoc. cbn [app].
  change (SWhileIncrement c st e) with (for_tree None c (Some e) st).
  eapply d_for; [apply then_punct|left; apply then_punct|apply d_for_none, then_punct| |apply then_punct| |apply then_punct|].
  - apply d_condition. apply IC; auto. apply stop_punct. cbn. auto 10.
  - apply d_increment. now apply if_parts.
  - apply (IT true); auto. now left.
Qed.
(** An indented expression. *)
Lemma indented : forall b e r, as_binary b e 0 ->
  D b Target (punct Indent :: print_expr e ++ punct Outdent :: r) (VE e) r.
Proof.
  intros b e r H. assert (ST : stop (punct Outdent :: r)) by (apply stop_punct; cbn; auto 10).
  eapply d_target_indented with (r1 := punct Outdent :: r); [apply then_punct| |apply opt_none, not_starts; reflexivity|apply then_punct].
  apply H; [now apply stop_calm|]. apply d_tail_end. apply ST.
Qed.
(** The line of an expression statement. *)
Definition print_line (e : expr) : list token :=
  if brace_first e then
    if negb (empty_first e) then print_open e
    else match e with
    | ESet o p a l =>
      punct Indent :: print_expr o ++ punct Dot :: name_tok p nowhere :: punct Outdent ::
      tok Equal "=" l :: print_expr a
    | ESetIndex o i a l =>
      punct Indent :: print_expr o ++ punct LeftBracket :: print_expr i ++ punct RightBracket ::
      punct Outdent :: tok Equal "=" l :: print_expr a
    | _ => punct Indent :: print_expr e ++ [punct Outdent]
    end
  else print_expr e.
Definition as_line (e : expr) : Prop := forall b, WE e -> open_b b (expr_strays e) ->
  forall r, stop r -> D b Expression (print_line e ++ r) (VE e) r.
Definition Pe' (e : expr) : Prop := Po e /\ as_line e.
Lemma empty_strength : forall e, empty_first e = true ->
  (exists o p a l, e = ESet o p a l) \/ (exists o i a l, e = ESetIndex o i a l) \/
  (1 <= strength e /\ print_line e = punct Indent :: print_expr e ++ [punct Outdent]).
Proof.
  intros e B. assert (BF : brace_first e = true).
  { revert B. induction e; cbn; auto. }
  unfold print_line. rewrite B, BF. cbn [negb].
  destruct e; cbn in B; try discriminate; eauto 10; right; right; split; try reflexivity; cbn; try lia.
  - destruct op; lia.
  - destruct op; lia.
Qed.
Lemma line_other : forall e, Po e -> empty_first e = false -> as_line e.
Proof.
  intros e [IH OH] E b W O r R. unfold print_line. rewrite E. destruct (brace_first e) eqn:B; cbn [negb].
  - apply OH; auto. now split.
  - now apply IH.
Qed.
Lemma line_plain : forall e, Po e -> (forall o p a l, e <> ESet o p a l) ->
  (forall o i a l, e <> ESetIndex o i a l) -> Pe' e.
Proof.
  intros e IH NS NI. split; auto. destruct (empty_first e) eqn:B; [|now apply line_other]. intros b W O r R.
  destruct (empty_strength e B) as [(o & p & a & l & ->)|[(o & x & a & l & ->)|[S1 ->]]].
  - now elim (NS o p a l).
  - now elim (NI o x a l).
  - apply d_expression; [|apply R].
    cbn [app]. rewrite <- app_assoc. cbn [app]. apply indented. apply IH; auto. unfold top_level. lia.
Qed.
Lemma empty_brace : forall e, empty_first e = true -> brace_first e = true.
Proof. intros e. induction e; cbn; auto. Qed.
Lemma line_set : forall o p e l, Po o -> Pe e -> Pe' (ESet o p e l).
Proof.
  intros o p e l IO IE. assert (PO := Po_set o p e l IO IE). split; auto.
  destruct (empty_first (ESet o p e l)) eqn:B; [|now apply line_other]. intros b W O r R.
  unfold print_line. rewrite B, (empty_brace _ B). cbn [negb].
  we W. cbn [expr_strays] in O. parts_split.
  destruct P as [[SA _] _]. cbn [operands_bind precedence_ok] in SA.
  cbn [app]. rewrite <- app_assoc. cbn [app].
  eapply d_assignment with (e := EGet o p nowhere) (t := tok Equal "=" l); [|reflexivity|now apply IE|].
  - assert (X := indented b (EGet o p nowhere) (tok Equal "=" l :: print_expr e ++ r)
      ltac:(apply (get_of b _ o p nowhere (proj1 IO b ltac:(assumption) ltac:(assumption)) SA); [unfold top_level; lia|cbn; lia])).
    cbn [print_expr] in X. rewrite <- app_assoc in X. exact X.
  - cbn. now destruct l.
Qed.
Lemma line_set_index : forall o x e l, Po o -> Pe x -> Pe e -> Pe' (ESetIndex o x e l).
Proof.
  intros o x e l IO IX IE. assert (PO := Po_set_index o x e l IO IX IE). split; auto.
  destruct (empty_first (ESetIndex o x e l)) eqn:B; [|now apply line_other]. intros b W O r R.
  unfold print_line. rewrite B, (empty_brace _ B). cbn [negb].
  we W. cbn [expr_strays] in O. parts_split.
  destruct P as [[SA _] _]. cbn [operands_bind precedence_ok] in SA.
  cbn [app]. rewrite <- app_assoc. cbn [app]. rewrite <- app_assoc. cbn [app].
  eapply d_assignment with (e := EGetIndex o x nowhere) (t := tok Equal "=" l); [|reflexivity|now apply IE|].
  - assert (X := indented b (EGetIndex o x nowhere) (tok Equal "=" l :: print_expr e ++ r)
      ltac:(apply (index_of b _ o x nowhere (proj1 IO b ltac:(assumption) ltac:(assumption))
                     (IX b ltac:(assumption) ltac:(assumption)) SA); [unfold top_level; lia|cbn; lia])).
    cbn [print_expr] in X. rewrite <- app_assoc in X. cbn [app] in X. rewrite <- app_assoc in X. exact X.
  - cbn. now destruct l.
Qed.
Lemma open_start : forall e, open_first e -> exists s q, print_open e = string_tok s :: q.
Proof.
  intros e. induction e; intros [A B]; cbn in A, B; try discriminate;
    try (destruct IHe as (s & q & E); [now split|]; cbn [print_open]; rewrite E; cbn [app]; eauto; fail);
    try (destruct IHe1 as (s & q & E); [now split|]; cbn [print_open]; rewrite E; cbn [app]; eauto; fail).
  destruct m as [|[k e] [|kv m]]; [discriminate| |]; cbn; eauto.
Qed.
Lemma Ps_expression : forall e, Pe' e -> Ps (SExpression e).
Proof.
  intros e [IH IL] b W O. we W. cbn [strays] in O. apply statement_all; auto.
  assert (E : print_stmt (SExpression e) = print_line e ++ [newline]) by reflexivity.
  assert (S : exists t q, print_line e = t :: q /\ t_type t <> LeftBrace).
  { unfold print_line. destruct (brace_first e) eqn:B; [destruct (empty_first e) eqn:M; cbn [negb]|].
    - exists (punct Indent). destruct e; eexists; (split; [reflexivity|discriminate]).
    - destruct (open_start e) as (s & q & ->); [now split|]. do 2 eexists. split; [reflexivity|discriminate].
    - destruct (brace_start e) as (t & q & -> & N). eauto. }
  destruct S as (t & q & S & N). apply not_brace.
  { rewrite E, S. do 2 eexists. split; [reflexivity|exact N]. }
  intros r R. rewrite E, <- app_assoc. cbn [app]. apply d_expression_statement.
  - rewrite S. cbn. intros [X|[]]. congruence.
  - eapply d_expression_line; [apply IL; auto; apply stop_punct; cbn; auto 10|apply then_punct].
Qed.

(** ** Classes *)
Definition print_method (n : named_fun) : list token :=
  match n with
  | NamedFun m (FunDef _ _ k l' as f) =>
    match k with ClassMethod => [punct Class] | _ => nil end ++ name_tok m l' :: print_fun f
  end.
Lemma with_kind_kind : forall f k, kind f = k -> with_kind k (with_kind PlainFunction f) = f.
Proof. intros [] k; cbn. now intros ->. Qed.
Lemma methods_print : forall b ms r, Forall (Pn Pf) ms -> Forall member_ok ms ->
  Forall well_formed_part (flat_map (fun n => match n with NamedFun _ f => fun_parts f end) ms) ->
  open_b b (flat_map (fun n => match n with NamedFun _ f => fun_strays f end) ms) ->
  D b (Methods RightBrace) (flat_map print_method ms ++ punct RightBrace :: r) (VMs ms) r.
Proof.
  intros b ms r F M W O. apply forall_flat in W. apply open_flat in O.
  induction F as [|[m f] ms H F IH]; cbn [flat_map app].
  - apply d_methods_end, then_punct.
  - inversion M as [|? ? MK M']; inversion W as [|? ? W1 W']; inversion O as [|? ? O1 O']; subst.
    rewrite <- app_assoc. cbn [Pn] in H.
    assert (FD : forall q, D b (Function (tloc (name_tok m (fun_loc f)))) (print_fun f ++ q) (VF (with_kind PlainFunction f)) q).
    { intros q. unfold name_tok. rewrite tloc_tok. now apply H. }
    destruct MK as [K|[[K E]|[K E]]].
    + assert (P : print_method (NamedFun m f) = punct Class :: name_tok m (fun_loc f) :: print_fun f).
      { destruct f. cbn in K. subst. reflexivity. }
      rewrite P. cbn [app].
      assert (X : NamedFun m f = NamedFun (t_lexeme (name_tok m (fun_loc f)))
        (with_kind (method_kind true (t_lexeme (name_tok m (fun_loc f)))) (with_kind PlainFunction f))).
      { rewrite with_kind_kind; [reflexivity|]. exact K. }
      rewrite X. eapply d_methods_class; [apply then_punct|apply then_name|apply FD|now apply IH].
    + assert (P : print_method (NamedFun m f) = name_tok m (fun_loc f) :: print_fun f).
      { destruct f. cbn in K. subst. reflexivity. }
      rewrite P. cbn [app].
      assert (X : NamedFun m f = NamedFun (t_lexeme (name_tok m (fun_loc f)))
        (with_kind (method_kind false (t_lexeme (name_tok m (fun_loc f)))) (with_kind PlainFunction f))).
      { rewrite with_kind_kind; [reflexivity|]. cbn. subst m. exact K. }
      rewrite X. eapply d_methods_more; [apply then_name|apply FD|now apply IH].
    + assert (P : print_method (NamedFun m f) = name_tok m (fun_loc f) :: print_fun f).
      { destruct f. cbn in K. subst. reflexivity. }
      rewrite P. cbn [app].
      assert (X : NamedFun m f = NamedFun (t_lexeme (name_tok m (fun_loc f)))
        (with_kind (method_kind false (t_lexeme (name_tok m (fun_loc f)))) (with_kind PlainFunction f))).
      { rewrite with_kind_kind; [reflexivity|]. cbn. apply String.eqb_neq in E. rewrite E. exact K. }
      rewrite X. eapply d_methods_more; [apply then_name|apply FD|now apply IH].
Qed.
Lemma Pc_class : forall x s ms l, Popt Pe' s -> Forall (Pn Pf) ms -> Pc (ClassDef x s ms l).
Proof.
  intros x s ms l _ IH b W O. do 2 we W. clear P. destruct P0 as [_ (K & SO & _)]. cbn in K, SO.
  cbn [class_strays] in O. parts_split.
  intros r R. cbn [print_stmt]. change (flat_map _ ms) with (flat_map print_method ms).
  assert (MP := methods_print b ms r IH K ltac:(assumption) ltac:(assumption)).
  cbn [app]. rewrite <- app_assoc. cbn [app]. rewrite <- app_assoc. cbn [app].
  destruct s as [e|].
  - destruct SO as (y & v & l' & ->).
    match goal with H : Forall _ (expr_parts _) |- _ => we H; destruct P as [_ (_ & _ & U & _)] end.
    cbn in U. subst v. cbn [app].
    replace (ClassDef x (Some (EVariable y (VarLoc 0 0) l')) ms l) with
      (ClassDef (t_lexeme (name_tok x l)) (Some (EVariable (t_lexeme (name_tok y l')) var_placeholder (tloc (name_tok y l')))) ms
        (tloc (name_tok x l))) by (destruct l, l'; reflexivity).
    eapply d_subclass; [apply then_punct|apply then_name|apply then_punct|apply then_name|now apply opens_brace|exact MP].
  - replace (ClassDef x None ms l) with (ClassDef (t_lexeme (name_tok x l)) None ms (tloc (name_tok x l)))
      by (destruct l; reflexivity).
    cbn [app]. eapply d_class; [apply then_punct|apply then_name|now apply opens_brace|exact MP].
Qed.
Lemma Ps_class : forall c, Pc c -> Ps (SClass c).
Proof. intros c H b W O. apply declaration_all; auto. Qed.

Lemma forall_pe : forall l, Forall Pe' l -> Forall Pe l.
Proof. intros l H. eapply Forall_impl; [|exact H]. now intros e [[] _]. Qed.
Lemma all_print : (forall st, Ps st) /\ (forall e, Pe' e) /\ (forall c, Pc c) /\ (forall f, Pf f).
Proof.
  apply tree_ind;
    first [apply Ps_block|apply Ps_break|apply Ps_class|apply Ps_continue|apply Ps_expression|apply Ps_fun
          |apply Pc_class|apply Pf_fun|idtac].
  - intros c t e [[IC _] _] IT IE. now apply Ps_if.
  - intros e [[H _] _]. now apply Ps_print.
  - intros e l [[H _] _]. now apply Ps_return.
  - intros x s e l [[H _] _]. now apply Ps_var.
  - intros c b [[IC _] _] IB. now apply Ps_while.
  - intros c b i [[IC _] _] IB [[II _] _]. now apply Ps_while_increment.
  - intros x v e l [[H _] _]. apply line_plain; try discriminate. apply closed; auto. now apply Pe_assign.
  - intros f args l [H _] HA. apply line_plain; try discriminate. apply Po_call; auto using forall_pe.
  - intros a op e l [H _] [[H2 _] _]. apply line_plain; try discriminate. now apply Po_binary.
  - intros f H. apply line_plain; try discriminate. apply closed; auto. now apply Pe_function.
  - intros e p l [H _]. apply line_plain; try discriminate. now apply Po_get.
  - intros e i l [H _] [[H2 _] _]. apply line_plain; try discriminate. now apply Po_index.
  - intros e [[H _] _]. apply line_plain; try discriminate. apply closed; auto. now apply Pe_grouping.
  - intros es H. apply line_plain; try discriminate. apply closed; auto. apply Pe_array; auto using forall_pe.
  - intros b. apply line_plain; try discriminate. apply closed; auto. apply Pe_bool.
  - intros m H. apply line_plain; try discriminate. apply Po_map.
    eapply Forall_impl; [|exact H]. now intros kv [[] _].
  - intros x. apply line_plain; try discriminate. apply closed; auto. apply Pe_number.
  - apply line_plain; try discriminate. apply closed; auto. apply Pe_nil.
  - intros s. apply line_plain; try discriminate. apply closed; auto. apply Pe_string.
  - intros a op e [H _] [[H2 _] _]. apply line_plain; try discriminate. now apply Po_logical.
  - intros o p v l [H _] [[H2 _] _]. now apply line_set.
  - intros a i v l [H _] [[H1 _] _] [[H2 _] _]. now apply line_set_index.
  - intros v m l. apply line_plain; try discriminate. apply closed; auto. apply Pe_super.
  - intros x v l. apply line_plain; try discriminate. apply closed; auto. apply Pe_variable.
  - intros op e l [[H _] _]. apply line_plain; try discriminate. apply closed; auto. now apply Pe_unary.
Qed.

(** Printing a well-formed program gives tokens that derive it. *)
Theorem print_derives : forall l, well_formed l -> D false Program (print_program l) (VSs l) [punct Eof].
Proof.
  intros l [W O]. apply program_print. apply all_declarations; auto.
  - apply Forall_forall. intros st _. apply all_print.
  - now right.
Qed.
End Print.
