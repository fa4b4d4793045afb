(** Printed trees can be written as text. *)
From Verif Require Import Base F64 Token Ast AstInd Scanner SpecLex SpecTree SpecPrint SpecWrite.

Definition has_sign (k : token_type) : bool :=
  existsb (fun p => tt_eqb (fst p) k) signs ||
  existsb (fun p => tt_eqb (snd p) k && negb (tt_eqb k This)) reserved.

Section Flow.
(** Tokens with a spelling. *)
Variable Q : token -> Prop.
Inductive flows : bool -> list token -> bool -> Prop :=
| FNil s : flows s nil s
| FNewline t ts s' : t_type t = Terminator -> t_string t = None -> t_float t = None ->
    flows false ts s' -> flows true (t :: ts) s'
| FWord s t ts s' : Q t -> (t_type t = LeftParenAbutting -> s = true) -> t_type t <> Eof -> t_type t <> Terminator ->
    flows true ts s' -> flows s (t :: ts) s'.
Lemma flows_app s a s' b s'' : flows s a s' -> flows s' b s'' -> flows s (a ++ b) s''.
Proof.
  induction 1 as [s|t ts s' K KS KF F IH|s t ts s' K N N1 N2 F IH]; intros H; cbn; auto.
  - apply FNewline; auto.
  - apply FWord; auto.
Qed.

Variables name text : string -> Prop.
Variable number : f64 -> Prop.
Hypothesis Qsign : forall k l s, has_sign k = true -> Q (tok k s l).
Hypothesis Qthis : forall l, Q (tok This "this" l).
Hypothesis Qname : forall x l, name x -> Q (name_tok x l).
Hypothesis Qtext : forall s, text s -> Q (string_tok s).
Hypothesis Qnumber : forall x, number x -> Q (number_tok x).
Notation writable := (writable name text number).

Lemma flows_sign s k tx l r s' : has_sign k = true -> k <> LeftParenAbutting ->
  flows true r s' -> flows s (tok k tx l :: r) s'.
Proof.
  intros A B F. apply FWord; [now apply Qsign|contradiction|cbn; intros ->; discriminate ..|exact F].
Qed.
Lemma flows_name s x l r s' : name x -> flows true r s' -> flows s (name_tok x l :: r) s'.
Proof. intros A F. apply FWord; auto; discriminate. Qed.
Lemma flows_string s x r s' : text x -> flows true r s' -> flows s (string_tok x :: r) s'.
Proof. intros A F. apply FWord; auto; discriminate. Qed.
Lemma flows_number s x r s' : number x -> flows true r s' -> flows s (number_tok x :: r) s'.
Proof. intros A F. apply FWord; auto; discriminate. Qed.
Lemma flows_abut l r s' : flows true r s' -> flows true (tok LeftParenAbutting "" l :: r) s'.
Proof. intros F. apply FWord; [apply Qsign; reflexivity|reflexivity|discriminate ..|exact F]. Qed.

Definition FE (i : list token) : Prop := forall s, flows s i true.
Definition FS (i : list token) : Prop := forall s, exists s', flows s i s'.
Lemma FE_S i : FE i -> FS i.
Proof. intros H s. eauto. Qed.
Lemma FS_app i j : FS i -> FS j -> FS (i ++ j).
Proof. intros A B s. destruct (A s) as (s1 & A1). destruct (B s1) as (s2 & B1). exists s2. eapply flows_app; eauto. Qed.
Lemma FSE_app i j : FS i -> FE j -> FE (i ++ j).
Proof. intros A B s. destruct (A s) as (s1 & A1). eapply flows_app; eauto. Qed.
Lemma FE_newline i : FE i -> FS (i ++ [newline]).
Proof. intros A s. exists false. eapply flows_app; [apply A|]. apply FNewline; auto. constructor. Qed.
Lemma FS_sign k tx l r : has_sign k = true -> k <> LeftParenAbutting -> FS r -> FS (tok k tx l :: r).
Proof. intros A B H s. destruct (H true) as (s' & F). exists s'. now apply flows_sign. Qed.
Lemma FE_sign k tx l r : has_sign k = true -> k <> LeftParenAbutting -> FE r -> FE (tok k tx l :: r).
Proof. intros A B H s. now apply flows_sign. Qed.
Lemma FE_end k tx l : has_sign k = true -> k <> LeftParenAbutting -> FE [tok k tx l].
Proof. intros A B s. apply flows_sign; auto. constructor. Qed.
Lemma FE_name x l : name x -> FE [name_tok x l].
Proof. intros A s. apply flows_name; auto. constructor. Qed.
Lemma FE_name_then x l r : name x -> FE r -> FE (name_tok x l :: r).
Proof. intros A H s. apply flows_name; auto. Qed.
Lemma FS_name_then x l r : name x -> FS r -> FS (name_tok x l :: r).
Proof. intros A H s. destruct (H true) as (s' & F). exists s'. apply flows_name; auto. Qed.
Lemma FS_nil : FS nil.
Proof. intros s. exists s. constructor. Qed.
Lemma FE_app i j : FE i -> FE j -> FE (i ++ j).
Proof. intros A B. apply FSE_app; auto. now apply FE_S. Qed.
Lemma FS_commas l : Forall FE l -> FS (commas l).
Proof.
  induction 1 as [|a r A F IH]; cbn; [apply FS_nil|]. destruct r as [|b r]; [rewrite app_nil_r; now apply FE_S|].
  apply FS_app; [now apply FE_S|]. apply (FS_sign Comma); auto; discriminate.
Qed.
Lemma FS_flat A (f : A -> list token) l : Forall (fun a => FS (f a)) l -> FS (flat_map f l).
Proof. induction 1; cbn; [apply FS_nil|]. now apply FS_app. Qed.

Notation W := (Forall writable).
Lemma W_app a b : W (a ++ b) <-> W a /\ W b.
Proof. apply Forall_app. Qed.
Lemma W_flat A (f : A -> list part) l : W (flat_map f l) -> Forall (fun a => W (f a)) l.
Proof. induction l as [|a l IH]; cbn; intros H; constructor; apply W_app in H; tauto. Qed.
Lemma forall_mp A (P R : A -> Prop) l : Forall (fun a => P a -> R a) l -> Forall P l -> Forall R l.
Proof. induction 1; inversion 1; subst; constructor; auto. Qed.
Ltac split_parts := repeat match goal with
  | H : Forall writable (_ :: _) |- _ => apply Forall_cons_iff in H; destruct H as [? H]
  | H : Forall writable (_ ++ _) |- _ => apply W_app in H; destruct H as [? H]
  | H : Forall writable nil |- _ => clear H
  end.
Ltac open H := cbn [parts expr_parts class_parts fun_parts] in H; split_parts; cbn [SpecWrite.writable] in *.

Lemma entries_flows m : Forall (fun kv => text (fst kv)) m -> Forall (fun kv => FE (print_expr (snd kv))) m ->
  FS (commas (map (fun kv => match kv with (k, a) => string_tok k :: punct Colon :: print_expr a end) m)).
Proof.
  intros T F. apply FS_commas. apply Forall_map. induction F as [|[k e] m P F IH]; inversion T; subst; constructor; auto.
  intros s. apply flows_string; auto. apply (flows_sign _ Colon); [reflexivity|discriminate|]. apply P.
Qed.
(** What is true of an expression and of the way it is written at the start of
    a statement. *)
Definition FO (e : expr) : Prop :=
  FE (print_expr e) /\ (brace_first e = true -> empty_first e = false -> FE (print_open e)).
Lemma FO_closed e : FE (print_expr e) -> brace_first e = false -> FO e.
Proof. intros H B. split; auto. congruence. Qed.
Lemma FO_after a e t : FO a -> print_expr e = print_expr a ++ t -> print_open e = print_open a ++ t ->
  brace_first e = brace_first a -> empty_first e = empty_first a -> (forall i, FE i -> FE (i ++ t)) -> FO e.
Proof. intros [A B] E0 E1 E2 E3 H. rewrite <- E2, <- E3 in B. split; [rewrite E0|rewrite E1]; auto. Qed.
Lemma print_flows :
  (forall st, W (parts st) -> FS (print_stmt st)) /\
  (forall e, W (expr_parts e) -> FO e) /\
  (forall c, W (class_parts c) -> FS (print_stmt (SClass c))) /\
  (forall f, W (fun_parts f) -> FE (print_fun f)).
Proof.
  apply tree_ind.
  - intros b IH H. open H. cbn [print_stmt]. apply (FS_sign LeftBrace); [reflexivity|discriminate|].
    apply FS_app; [|apply FE_S, FE_end; [reflexivity|discriminate]]. apply FS_flat. eapply forall_mp; [exact IH|]. now apply W_flat.
  - intros l H. cbn [print_stmt]. apply (FE_newline [tok Break "break" l]). apply FE_end; [reflexivity|discriminate].
  - intros c IH H. apply IH. now inversion H.
  - intros l H. cbn [print_stmt]. apply (FE_newline [tok Continue "continue" l]). apply FE_end; [reflexivity|discriminate].
  - intros e IH H. open H. cbn [print_stmt]. rewrite H0. cbn [negb]. apply FE_newline.
    destruct (IH H) as [A B]. destruct (brace_first e); auto.
  - intros n f IH H. open H. cbn [print_stmt]. apply (FS_sign Fun); [reflexivity|discriminate|].
    apply FS_name_then; auto. apply FE_S. auto.
  - intros c t e IHc IHt IHe H. open H. cbn [print_stmt].
    apply (FS_sign If); [reflexivity|discriminate|]. apply (FS_sign LeftParen); [reflexivity|discriminate|].
    apply FS_app; [apply FE_S; now apply IHc|]. apply (FS_sign RightParen); [reflexivity|discriminate|].
    apply FS_app; [auto|]. destruct e as [e|]; [|apply FS_nil].
    apply (FS_sign Else); [reflexivity|discriminate|]. auto.
  - intros e IH H. open H. cbn [print_stmt]. apply (FE_newline (punct Print :: print_expr e)).
    apply (FE_sign Print); [reflexivity|discriminate|]. now apply IH.
  - intros e l IH H. open H. cbn [print_stmt]. apply (FE_newline (tok Return "return" l :: print_expr e)).
    apply FE_sign; [reflexivity|discriminate|]. now apply IH.
  - intros x s e l IH H. open H. cbn [print_stmt].
    apply (FE_newline (punct Var :: name_tok x l :: punct Equal :: print_expr e)).
    apply (FE_sign Var); [reflexivity|discriminate|]. apply FE_name_then; auto.
    apply (FE_sign Equal); [reflexivity|discriminate|]. now apply IH.
  - intros c b IHc IHb H. open H. cbn [print_stmt].
    apply (FS_sign While); [reflexivity|discriminate|]. apply (FS_sign LeftParen); [reflexivity|discriminate|].
    apply FS_app; [apply FE_S; now apply IHc|]. apply (FS_sign RightParen); [reflexivity|discriminate|]. auto.
  - intros c b i IHc IHb IHi H. open H. cbn [print_stmt].
    apply (FS_sign For); [reflexivity|discriminate|]. apply (FS_sign LeftParen); [reflexivity|discriminate|].
    apply (FS_sign Semicolon); [reflexivity|discriminate|].
    apply FS_app; [apply FE_S; now apply IHc|]. apply (FS_sign Semicolon); [reflexivity|discriminate|].
    apply FS_app; [apply FE_S; now apply IHi|]. apply (FS_sign RightParen); [reflexivity|discriminate|]. auto.
  - intros x v e l IH H. open H. apply FO_closed; auto. cbn [print_expr]. apply FE_name_then; auto.
    apply FE_sign; [reflexivity|discriminate|]. now apply IH.
  - intros f args l IHf IHa H. open H.
    assert (X : FE (commas (map print_expr args) ++ [punct RightParen])).
    { apply FSE_app; [|apply FE_end; [reflexivity|discriminate]]. apply FS_commas. apply Forall_map.
      eapply forall_mp; [eapply Forall_impl; [|exact IHa]; intros e K L; exact (proj1 (K L))|]. now apply W_flat. }
    eapply (FO_after f); [auto|reflexivity|reflexivity|reflexivity|reflexivity|]. intros i A s. eapply flows_app; [apply A|]. apply flows_abut. apply X.
  - intros a op b l IHa IHb H. open H. eapply (FO_after a); [auto|reflexivity|reflexivity|reflexivity|reflexivity|]. intros i A. apply FE_app; auto.
    apply FE_sign; [now destruct op|now destruct op|]. now apply IHb.
  - intros f IH H. open H. apply FO_closed; auto. cbn [print_expr]. apply FE_sign; [reflexivity|discriminate|]. auto.
  - intros e p l IH H. open H. eapply (FO_after e); [auto|reflexivity|reflexivity|reflexivity|reflexivity|]. intros i A. apply FE_app; auto.
    apply FE_sign; [reflexivity|discriminate|]. now apply FE_name.
  - intros e i l IHe IHi H. open H. eapply (FO_after e); [auto|reflexivity|reflexivity|reflexivity|reflexivity|]. intros j A. apply FE_app; auto.
    apply FE_sign; [reflexivity|discriminate|].
    apply FE_app; [now apply IHi|]. apply FE_end; [reflexivity|discriminate].
  - intros e IH H. open H. apply FO_closed; auto. cbn [print_expr]. apply (FE_sign LeftParen); [reflexivity|discriminate|].
    apply FE_app; [now apply IH|]. apply FE_end; [reflexivity|discriminate].
  - intros es IH H. open H. apply FO_closed; auto. cbn [print_expr]. apply (FE_sign LeftBracket); [reflexivity|discriminate|].
    apply FSE_app; [|apply FE_end; [reflexivity|discriminate]]. apply FS_commas. apply Forall_map.
    eapply forall_mp; [eapply Forall_impl; [|exact IH]; intros e K L; exact (proj1 (K L))|]. now apply W_flat.
  - intros b H. apply FO_closed; auto. cbn [print_expr]. apply FE_end; destruct b; try reflexivity; discriminate.
  - intros m IH H. open H. apply W_flat in H.
    assert (X : FS (commas (map (fun kv => match kv with (k, a) => string_tok k :: punct Colon :: print_expr a end) m))).
    { apply entries_flows; auto. clear H0. induction IH as [|[k e] m P F IH']; [constructor|]. inversion H; subst.
      constructor; auto. now apply P. }
    split; [|intros _ _]; cbn [print_expr print_open].
    + apply (FE_sign LeftBrace); [reflexivity|discriminate|]. apply FSE_app; auto. apply FE_end; [reflexivity|discriminate].
    + apply FSE_app; auto. apply FE_end; [reflexivity|discriminate].
  - intros x H. open H. apply FO_closed; auto. cbn [print_expr]. intros s. apply flows_number; auto. constructor.
  - intros H. apply FO_closed; auto. cbn [print_expr]. apply FE_end; [reflexivity|discriminate].
  - intros x H. open H. apply FO_closed; auto. cbn [print_expr]. intros s. apply flows_string; auto. constructor.
  - intros a op b IHa IHb H. open H. eapply (FO_after a); [auto|reflexivity|reflexivity|reflexivity|reflexivity|]. intros i A. apply FE_app; auto.
    apply FE_sign; [now destruct op|now destruct op|]. now apply IHb.
  - intros o p v l IHo IHv H. open H. eapply (FO_after o); [auto|reflexivity|reflexivity|reflexivity|reflexivity|]. intros i A. apply FE_app; auto.
    apply (FE_sign Dot); [reflexivity|discriminate|].
    apply FE_name_then; auto. apply FE_sign; [reflexivity|discriminate|]. now apply IHv.
  - intros a i v l IHa IHi IHv H. open H. eapply (FO_after a); [auto|reflexivity|reflexivity|reflexivity|reflexivity|]. intros j A. apply FE_app; auto.
    apply (FE_sign LeftBracket); [reflexivity|discriminate|]. apply FE_app; [now apply IHi|].
    apply (FE_sign RightBracket); [reflexivity|discriminate|]. apply FE_sign; [reflexivity|discriminate|]. now apply IHv.
  - intros v m l H. open H. apply FO_closed; auto. cbn [print_expr]. apply FE_sign; [reflexivity|discriminate|].
    apply (FE_sign Dot); [reflexivity|discriminate|]. now apply FE_name.
  - intros x v l H. open H. apply FO_closed; auto. cbn [print_expr]. destruct (String.eqb_spec x "this") as [->|N].
    + intros s. apply FWord; auto; try discriminate. constructor.
    + destruct H0 as [E|E]; [congruence|]. now apply FE_name.
  - intros op e l IH H. open H. apply FO_closed; auto. cbn [print_expr].
    apply FE_sign; [now destruct op|now destruct op|]. now apply IH.
  - intros n s ms l IHs IHm H. open H. destruct H0 as (N & SU & MS). cbn [print_stmt].
    apply (FS_sign Class); [reflexivity|discriminate|]. apply FS_name_then; auto. apply FS_app.
    { destruct s as [[]|]; try apply FS_nil. apply (FS_sign Less); [reflexivity|discriminate|].
      apply FS_name_then; auto. apply FS_nil. }
    apply (FS_sign LeftBrace); [reflexivity|discriminate|].
    apply FS_app; [|apply FE_S, FE_end; [reflexivity|discriminate]]. apply FS_flat.
    apply W_flat in H.
    induction IHm as [|[m f] ms P F IH']; [constructor|]. inversion H; inversion MS; subst. constructor; auto.
    destruct f as [ps b k l']. apply FS_app.
    + destruct k; try apply FS_nil. apply FE_S, FE_end; [reflexivity|discriminate].
    + apply FS_name_then; auto. apply FE_S. now apply P.
  - intros ps b k l IH H. open H. cbn [print_fun]. apply (FE_sign LeftParen); [reflexivity|discriminate|].
    apply FSE_app.
    { apply FS_commas. apply Forall_map. eapply Forall_impl; [|exact H0]. intros p N. now apply FE_name. }
    apply (FE_sign RightParen); [reflexivity|discriminate|]. apply (FE_sign LeftBrace); [reflexivity|discriminate|].
    apply FSE_app; [|apply FE_end; [reflexivity|discriminate]]. apply FS_flat. eapply forall_mp; [exact IH|]. now apply W_flat.
Qed.
Lemma program_flows l : Forall writable (program_parts l) -> FS (flat_map print_stmt l).
Proof.
  intros H. apply FS_flat. apply W_flat in H. eapply Forall_impl; [|exact H]. apply print_flows.
Qed.
End Flow.
