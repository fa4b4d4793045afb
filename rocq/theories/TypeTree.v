(** Typed trees can be written as text, indentation included. *)
From Verif Require Import Base F64 Token Ast AstInd Scanner SpecLex SpecTree SpecPrint SpecWrite SpecType WriteTree.

(** Where the writer stands: inside a line, at the start of one, or at the start of one whose
    indentation is already known to differ. *)
Inductive mode : Type := Mid | Fresh | Due.

Section Flow.
(** Tokens with a spelling. *)
Variable Q : token -> Prop.
Inductive flows : mode -> nat -> list token -> mode -> nat -> Prop :=
| FNil s d : flows s d nil s d
| FNewline d t ts s' d' : t_type t = Terminator -> t_string t = None -> t_float t = None ->
    flows Fresh d ts s' d' -> flows Mid d (t :: ts) s' d'
| FWord s d t ts s' d' : Q t -> (t_type t = LeftParenAbutting -> s = Mid) ->
    ~ In (t_type t) [Eof; Terminator; Indent; Outdent] ->
    flows Mid d ts s' d' -> flows s d (t :: ts) s' d'
| FIndent s d t ts s' d' : s <> Due -> t_type t = Indent -> t_string t = None -> t_float t = None ->
    flows Due (S d) ts s' d' -> flows s d (t :: ts) s' d'
| FOutdent d t ts s' d' : t_type t = Outdent -> t_string t = None -> t_float t = None ->
    flows Due d ts s' d' -> flows Fresh (S d) (t :: ts) s' d'.
Lemma flows_app s d a s' d' b s'' d'' : flows s d a s' d' -> flows s' d' b s'' d'' -> flows s d (a ++ b) s'' d''.
Proof.
  induction 1; intros G; cbn; auto.
  - apply FNewline; auto.
  - apply FWord; auto.
  - apply FIndent; auto.
  - apply FOutdent; auto.
Qed.

Variables name text : string -> Prop.
Variable number : f64 -> Prop.
Hypothesis Qsign : forall k l s, has_sign k = true -> Q (tok k s l).
Hypothesis Qthis : forall l, Q (tok This "this" l).
Hypothesis Qname : forall x l, name x -> Q (name_tok x l).
Hypothesis Qtext : forall s, text s -> Q (string_tok s).
Hypothesis Qnumber : forall x, number x -> Q (number_tok x).
Notation leafy := (leaf name text number).

Lemma flows_sign s d k tx l r s' d' : has_sign k = true -> k <> LeftParenAbutting ->
  flows Mid d r s' d' -> flows s d (tok k tx l :: r) s' d'.
Proof.
  intros A B F. apply FWord; [now apply Qsign|contradiction| |exact F].
  intros I. cbn in I. repeat (destruct I as [<-|I]; [discriminate A|]). contradiction.
Qed.
Lemma flows_name s d x l r s' d' : name x -> flows Mid d r s' d' -> flows s d (name_tok x l :: r) s' d'.
Proof. intros A F. apply FWord; auto; cbn; intuition discriminate. Qed.
Lemma flows_string s d x r s' d' : text x -> flows Mid d r s' d' -> flows s d (string_tok x :: r) s' d'.
Proof. intros A F. apply FWord; auto; cbn; intuition discriminate. Qed.
Lemma flows_number s d x r s' d' : number x -> flows Mid d r s' d' -> flows s d (number_tok x :: r) s' d'.
Proof. intros A F. apply FWord; auto; cbn; intuition discriminate. Qed.
Lemma flows_abut d l r s' d' : flows Mid d r s' d' -> flows Mid d (tok LeftParenAbutting "" l :: r) s' d'.
Proof. intros F. apply FWord; [apply Qsign; reflexivity|reflexivity|cbn; intuition discriminate|exact F]. Qed.

(** Expressions, what may also be empty, and statements. *)
Definition FE (i : list token) : Prop := forall s d, flows s d i Mid d.
Definition FS (i : list token) : Prop := forall s d, exists s', (s' = Due -> s = Due) /\ flows s d i s' d.
Definition FT (i : list token) : Prop := forall s d, s <> Due -> exists s', s' <> Due /\ flows s d i s' d.
Lemma FE_S i : FE i -> FS i.
Proof. intros H s d. exists Mid. split; [discriminate|apply H]. Qed.
Lemma FS_T i : FS i -> FT i.
Proof. intros H s d N. destruct (H s d) as (s' & A & F). exists s'. split; auto. Qed.
Lemma FE_T i : FE i -> FT i.
Proof. intros H. apply FS_T, FE_S, H. Qed.
Lemma FS_app i j : FS i -> FS j -> FS (i ++ j).
Proof.
  intros A B s d. destruct (A s d) as (s1 & N1 & A1). destruct (B s1 d) as (s2 & N2 & B1). exists s2. split; auto.
  eapply flows_app; eauto.
Qed.
Lemma FT_app i j : FT i -> FT j -> FT (i ++ j).
Proof.
  intros A B s d N. destruct (A s d N) as (s1 & N1 & A1). destruct (B s1 d N1) as (s2 & N2 & B1). exists s2. split; auto.
  eapply flows_app; eauto.
Qed.
Lemma FSE_app i j : FS i -> FE j -> FE (i ++ j).
Proof. intros A B s d. destruct (A s d) as (s1 & N1 & A1). eapply flows_app; [exact A1|apply B]. Qed.
Lemma FE_newline_then i j : FE i -> FT j -> FT (i ++ newline :: j).
Proof.
  intros A B s d N. destruct (B Fresh d) as (s' & N' & F); [discriminate|]. exists s'. split; auto.
  eapply flows_app; [apply A|]. apply FNewline; auto.
Qed.
Lemma FT_nil : FT nil.
Proof. intros s d N. exists s. split; auto. constructor. Qed.
Lemma FE_newline i : FE i -> FT (i ++ [newline]).
Proof. intros A. apply FE_newline_then; auto using FT_nil. Qed.
Lemma FS_sign k tx l r : has_sign k = true -> k <> LeftParenAbutting -> FS r -> FS (tok k tx l :: r).
Proof.
  intros A B H s d. destruct (H Mid d) as (s' & N & F). exists s'. split; [|now apply flows_sign].
  intros E. apply N in E. discriminate.
Qed.
Lemma FT_sign k tx l r : has_sign k = true -> k <> LeftParenAbutting -> FT r -> FT (tok k tx l :: r).
Proof. intros A B H s d _. destruct (H Mid d) as (s' & N & F); [discriminate|]. exists s'. split; auto. now apply flows_sign. Qed.
Lemma FE_sign k tx l r : has_sign k = true -> k <> LeftParenAbutting -> FE r -> FE (tok k tx l :: r).
Proof. intros A B H s d. now apply flows_sign. Qed.
Lemma FE_end k tx l : has_sign k = true -> k <> LeftParenAbutting -> FE [tok k tx l].
Proof. intros A B s d. apply flows_sign; auto. constructor. Qed.
Lemma FE_name x l : name x -> FE [name_tok x l].
Proof. intros A s d. apply flows_name; auto. constructor. Qed.
Lemma FE_name_then x l r : name x -> FE r -> FE (name_tok x l :: r).
Proof. intros A H s d. apply flows_name; auto. Qed.
Lemma FS_name_then x l r : name x -> FS r -> FS (name_tok x l :: r).
Proof.
  intros A H s d. destruct (H Mid d) as (s' & N & F). exists s'. split; [|now apply flows_name].
  intros E. apply N in E. discriminate.
Qed.
Lemma FT_name_then x l r : name x -> FT r -> FT (name_tok x l :: r).
Proof. intros A H s d _. destruct (H Mid d) as (s' & N & F); [discriminate|]. exists s'. split; auto. now apply flows_name. Qed.
Lemma FS_nil : FS nil.
Proof. intros s d. exists s. split; auto. constructor. Qed.
Lemma FE_app i j : FE i -> FE j -> FE (i ++ j).
Proof. intros A B. apply FSE_app; auto. now apply FE_S. Qed.
Lemma FS_commas l : Forall FE l -> FS (commas l).
Proof.
  induction 1 as [|a r A F IH]; cbn; [apply FS_nil|]. destruct r as [|b r]; [rewrite app_nil_r; now apply FE_S|].
  apply FS_app; [now apply FE_S|]. apply (FS_sign Comma); auto; discriminate.
Qed.
Lemma FT_flat A (f : A -> list token) l : Forall (fun a => FT (f a)) l -> FT (flat_map f l).
Proof. induction 1; cbn; [apply FT_nil|]. now apply FT_app. Qed.
(** Statements between braces. *)
Lemma FE_braces i : FT i -> FE (punct LeftBrace :: i ++ [punct RightBrace]).
Proof.
  intros H s d. apply (flows_sign _ _ LeftBrace); [reflexivity|discriminate|].
  destruct (H Mid d) as (s' & N & F); [discriminate|]. eapply flows_app; [exact F|].
  apply (FE_end RightBrace); [reflexivity|discriminate].
Qed.
(** The assignment to an indented target. *)
Lemma FT_indented i j : FE i -> FE j -> FT (punct Indent :: i ++ newline :: punct Outdent :: j ++ [newline]).
Proof.
  intros A B s d N. exists Fresh. split; [discriminate|]. apply FIndent; auto.
  eapply flows_app; [apply A|]. apply FNewline; auto. apply FOutdent; auto.
  eapply flows_app; [apply B|]. apply FNewline; auto. constructor.
Qed.

Definition fine (p : part) : Prop := leafy p /\ settled_part p.
Notation W := (Forall fine).
Lemma W_app a b : W (a ++ b) <-> W a /\ W b.
Proof. apply Forall_app. Qed.
Lemma W_flat A (f : A -> list part) l : W (flat_map f l) -> Forall (fun a => W (f a)) l.
Proof. induction l as [|a l IH]; cbn; intros H; constructor; apply W_app in H; tauto. Qed.
Lemma forall_mp A (P R : A -> Prop) l : Forall (fun a => P a -> R a) l -> Forall P l -> Forall R l.
Proof. induction 1; inversion 1; subst; constructor; auto. Qed.
Ltac split_parts := repeat match goal with
  | H : Forall fine (_ :: _) |- _ => apply Forall_cons_iff in H; destruct H as [? H]
  | H : Forall fine (_ ++ _) |- _ => apply W_app in H; destruct H as [? H]
  | H : Forall fine nil |- _ => clear H
  end.
Ltac open H := cbn [parts expr_parts class_parts fun_parts] in H; split_parts;
  repeat match goal with G : fine _ |- _ => destruct G as [? ?]; cbn [leaf SpecWrite.writable settled_part] in * end.

Lemma entries_flows m : Forall (fun kv => text (fst kv)) m -> Forall (fun kv => FE (type_expr (snd kv))) m ->
  FS (commas (map (fun kv => match kv with (k, a) => string_tok k :: punct Colon :: type_expr a end) m)).
Proof.
  intros T F. apply FS_commas. apply Forall_map. induction F as [|[k e] m P F IH]; inversion T; subst; constructor; auto.
  intros s d. apply flows_string; auto. apply (flows_sign _ _ Colon); [reflexivity|discriminate|]. apply P.
Qed.
(** What is true of an expression and of the way it is written at the start of
    a statement. *)
Definition FO (e : expr) : Prop :=
  FE (type_expr e) /\ (brace_first e = true -> empty_first e = false -> FE (type_open e)).
Lemma FO_closed e : FE (type_expr e) -> brace_first e = false -> FO e.
Proof. intros H B. split; auto. congruence. Qed.
Lemma FO_after a e t : FO a -> type_expr e = type_expr a ++ t -> type_open e = type_open a ++ t ->
  brace_first e = brace_first a -> empty_first e = empty_first a -> (forall i, FE i -> FE (i ++ t)) -> FO e.
Proof. intros [A B] E0 E1 E2 E3 H. rewrite <- E2, <- E3 in B. split; [rewrite E0|rewrite E1]; auto. Qed.
(** The two sides of an assignment. *)
Definition FI (e : expr) : Prop :=
  match e with
  | ESet o p v l => FE (type_expr o ++ [punct Dot; name_tok p nowhere]) /\ FE (tok Equal "=" l :: type_expr v)
  | ESetIndex o i v l =>
    FE (type_expr o ++ punct LeftBracket :: type_expr i ++ [punct RightBracket]) /\ FE (tok Equal "=" l :: type_expr v)
  | _ => True
  end.
(** What is true of a statement, and what the loops of a [for] need. *)
Definition FST (st : stmt) : Prop := (free st -> FT (type_stmt st)) /\
  match st with
  | SExpression e => FE (type_expr e)
  | SWhile c b => FE (type_expr c) /\ FT (type_stmt b)
  | SWhileIncrement c b i => FE (type_expr c) /\ FT (type_stmt b) /\ FE (type_expr i)
  | _ => True
  end.
Lemma all_flow l : Forall (fun st => W (parts st) -> FST st) l -> W (flat_map parts l) -> Forall free l ->
  FT (flat_map type_stmt l).
Proof.
  intros IH H N. apply W_flat in H. apply FT_flat.
  induction IH as [|st l A F IH]; inversion H; inversion N; subst; constructor; auto. now apply A.
Qed.
Lemma block_flow l : for_block l = false ->
  type_stmt (SBlock l) = punct LeftBrace :: flat_map type_stmt l ++ [punct RightBrace].
Proof.
  intros F. destruct l as [|[] [|[] [|]]]; try reflexivity; cbn in F; cbn [type_stmt]; now rewrite F.
Qed.
Ltac sg := reflexivity || discriminate.
Lemma type_flows :
  (forall st, W (parts st) -> FST st) /\
  (forall e, W (expr_parts e) -> FO e /\ FI e) /\
  (forall c, W (class_parts c) -> FT (type_stmt (SClass c))) /\
  (forall f, W (fun_parts f) -> FE (type_fun f)).
Proof.
  apply tree_ind.
  - intros b IH H. open H. split; [intros _|exact I]. destruct (for_block b) eqn:FB.
    + destruct b as [|[] [|[] [|]]]; try discriminate FB; cbn in FB; apply W_flat in H;
        inversion IH as [|? ? A IH']; subst; inversion IH' as [|? ? B _]; subst;
        inversion H as [|? ? C H']; subst; inversion H' as [|? ? D _]; subst;
        destruct (A C) as [_ A']; destruct (B D) as [_ B']; cbn [type_stmt]; rewrite FB.
      * destruct B' as [B1 B2]. apply (FT_sign For); [sg|sg|]. apply (FT_sign LeftParen); [sg|sg|].
        apply FE_newline_then; auto. apply FT_app; [now apply FE_T|].
        apply (FT_sign Semicolon); [sg|sg|]. apply (FT_sign RightParen); [sg|sg|]. auto.
      * destruct B' as (B1 & B2 & B3). apply (FT_sign For); [sg|sg|]. apply (FT_sign LeftParen); [sg|sg|].
        apply FE_newline_then; auto. apply FT_app; [now apply FE_T|].
        apply (FT_sign Semicolon); [sg|sg|]. apply FT_app; [now apply FE_T|]. apply (FT_sign RightParen); [sg|sg|]. auto.
    + rewrite block_flow by assumption. apply FE_T, FE_braces. apply all_flow; auto.
      match goal with G : _ \/ _ |- _ => destruct G as [G|G]; [congruence|exact G] end.
  - intros l H. split; [intros _|exact I]. cbn [type_stmt]. apply (FE_newline [tok Break "break" l]). apply FE_end; sg.
  - intros c IH H. split; [intros _|exact I]. apply IH. now inversion H.
  - intros l H. split; [intros _|exact I]. cbn [type_stmt]. apply (FE_newline [tok Continue "continue" l]). apply FE_end; sg.
  - intros e IH H. open H. destruct (IH H) as [[A B] FX]. split; [|exact A]. intros N. cbn [type_stmt].
    destruct (brace_first e) eqn:BF; [|now apply FE_newline].
    destruct (empty_first e) eqn:EF; cbn [negb]; [|apply FE_newline; auto].
    cbn in N. unfold loose in N. rewrite EF in N. destruct e; try discriminate N.
    + destruct FX as [X Y]. assert (Z := FT_indented _ _ X Y). rewrite <- app_assoc in Z. cbn [app] in Z |- *.
      rewrite <- app_assoc. exact Z.
    + destruct FX as [X Y]. assert (Z := FT_indented _ _ X Y). rewrite <- app_assoc in Z. cbn [app] in Z |- *.
      rewrite <- app_assoc in Z. rewrite <- app_assoc. cbn [app] in Z |- *. rewrite <- app_assoc. exact Z.
  - intros n f IH H. open H. split; [intros _|exact I]. cbn [type_stmt]. apply (FT_sign Fun); [sg|sg|].
    apply FT_name_then; auto. apply FE_T. auto.
  - intros c t e IHc IHt IHe H. open H. split; [intros _|exact I]. cbn [type_stmt].
    match goal with G : free t /\ _ |- _ => destruct G as [FT1 FE1] end.
    apply (FT_sign If); [sg|sg|]. apply (FT_sign LeftParen); [sg|sg|].
    apply FT_app; [apply FE_T; now apply IHc|]. apply (FT_sign RightParen); [sg|sg|].
    apply FT_app; [now apply IHt|]. destruct e as [e|]; [|apply FT_nil].
    apply (FT_sign Else); [sg|sg|]. destruct FE1. now apply IHe.
  - intros e IH H. open H. split; [intros _|exact I]. cbn [type_stmt]. apply (FE_newline (punct Print :: type_expr e)).
    apply (FE_sign Print); [sg|sg|]. now apply IH.
  - intros e l IH H. open H. split; [intros _|exact I]. cbn [type_stmt].
    apply (FE_newline (tok Return "return" l :: type_expr e)).
    apply FE_sign; [sg|sg|]. now apply IH.
  - intros x s e l IH H. open H. split; [intros _|exact I]. cbn [type_stmt].
    apply (FE_newline (punct Var :: name_tok x l :: punct Equal :: type_expr e)).
    apply (FE_sign Var); [sg|sg|]. apply FE_name_then; auto.
    apply (FE_sign Equal); [sg|sg|]. now apply IH.
  - intros c b IHc IHb H. open H.
    assert (A : FE (type_expr c)) by now apply IHc. assert (B : FT (type_stmt b)) by now apply IHb.
    split; [intros _|exact (conj A B)]. cbn [type_stmt].
    apply (FT_sign While); [sg|sg|]. apply (FT_sign LeftParen); [sg|sg|].
    apply FT_app; [now apply FE_T|]. apply (FT_sign RightParen); [sg|sg|]. auto.
  - intros c b i IHc IHb IHi H. open H.
    assert (A : FE (type_expr c)) by now apply IHc. assert (B : FT (type_stmt b)) by now apply IHb.
    assert (C : FE (type_expr i)) by now apply IHi.
    split; [intros _|exact (conj A (conj B C))]. cbn [type_stmt].
    apply (FT_sign For); [sg|sg|]. apply (FT_sign LeftParen); [sg|sg|].
    apply (FT_sign Semicolon); [sg|sg|].
    apply FT_app; [now apply FE_T|]. apply (FT_sign Semicolon); [sg|sg|].
    apply FT_app; [now apply FE_T|]. apply (FT_sign RightParen); [sg|sg|]. auto.
  - intros x v e l IH H. open H. split; [|exact I]. apply FO_closed; auto. cbn [type_expr]. apply FE_name_then; auto.
    apply FE_sign; [reflexivity|discriminate|]. now apply IH.
  - intros f args l IHf IHa H. open H.
    assert (X : FE (commas (map type_expr args) ++ [punct RightParen])).
    { apply FSE_app; [|apply FE_end; [reflexivity|discriminate]]. apply FS_commas. apply Forall_map.
      eapply forall_mp; [eapply Forall_impl; [|exact IHa]; intros e K L; exact (proj1 (proj1 (K L)))|]. now apply W_flat. }
    split; [|exact I]. eapply (FO_after f); [now apply IHf|reflexivity|reflexivity|reflexivity|reflexivity|]. intros i A s d. eapply flows_app; [apply A|]. apply flows_abut. apply X.
  - intros a op b l IHa IHb H. open H. split; [|exact I]. eapply (FO_after a); [now apply IHa|reflexivity|reflexivity|reflexivity|reflexivity|]. intros i A. apply FE_app; auto.
    apply FE_sign; [now destruct op|now destruct op|]. now apply IHb.
  - intros f IH H. open H. split; [|exact I]. apply FO_closed; auto. cbn [type_expr]. apply FE_sign; [reflexivity|discriminate|]. auto.
  - intros e p l IH H. open H. split; [|exact I]. eapply (FO_after e); [now apply IH|reflexivity|reflexivity|reflexivity|reflexivity|]. intros i A. apply FE_app; auto.
    apply FE_sign; [reflexivity|discriminate|]. now apply FE_name.
  - intros e i l IHe IHi H. open H. split; [|exact I]. eapply (FO_after e); [now apply IHe|reflexivity|reflexivity|reflexivity|reflexivity|]. intros j A. apply FE_app; auto.
    apply FE_sign; [reflexivity|discriminate|].
    apply FE_app; [now apply IHi|]. apply FE_end; [reflexivity|discriminate].
  - intros e IH H. open H. split; [|exact I]. apply FO_closed; auto. cbn [type_expr]. apply (FE_sign LeftParen); [reflexivity|discriminate|].
    apply FE_app; [now apply IH|]. apply FE_end; [reflexivity|discriminate].
  - intros es IH H. open H. split; [|exact I]. apply FO_closed; auto. cbn [type_expr]. apply (FE_sign LeftBracket); [reflexivity|discriminate|].
    apply FSE_app; [|apply FE_end; [reflexivity|discriminate]]. apply FS_commas. apply Forall_map.
    eapply forall_mp; [eapply Forall_impl; [|exact IH]; intros e K L; exact (proj1 (proj1 (K L)))|]. now apply W_flat.
  - intros b H. split; [|exact I]. apply FO_closed; auto. cbn [type_expr]. apply FE_end; destruct b; try reflexivity; discriminate.
  - intros m IH H. open H. apply W_flat in H.
    assert (X : FS (commas (map (fun kv => match kv with (k, a) => string_tok k :: punct Colon :: type_expr a end) m))).
    { apply entries_flows; auto. clear H0. induction IH as [|[k e] m P F IH']; [constructor|]. inversion H; subst.
      constructor; auto. now apply P. }
    split; [|exact I]. split; [|intros _ _]; cbn [type_expr type_open].
    + apply (FE_sign LeftBrace); [reflexivity|discriminate|]. apply FSE_app; auto. apply FE_end; [reflexivity|discriminate].
    + apply FSE_app; auto. apply FE_end; [reflexivity|discriminate].
  - intros x H. open H. split; [|exact I]. apply FO_closed; auto. cbn [type_expr]. intros s d. apply flows_number; auto. constructor.
  - intros H. split; [|exact I]. apply FO_closed; auto. cbn [type_expr]. apply FE_end; [reflexivity|discriminate].
  - intros x H. open H. split; [|exact I]. apply FO_closed; auto. cbn [type_expr]. intros s d. apply flows_string; auto. constructor.
  - intros a op b IHa IHb H. open H. split; [|exact I]. eapply (FO_after a); [now apply IHa|reflexivity|reflexivity|reflexivity|reflexivity|]. intros i A. apply FE_app; auto.
    apply FE_sign; [now destruct op|now destruct op|]. now apply IHb.
  - intros o p v l IHo IHv H. open H. split.
    2:{ split; [apply FE_app; [now apply IHo|]; apply (FE_sign Dot); [sg|sg|]; now apply FE_name|].
        apply FE_sign; [sg|sg|]. now apply IHv. }
    eapply (FO_after o); [now apply IHo|reflexivity|reflexivity|reflexivity|reflexivity|]. intros i A. apply FE_app; auto.
    apply (FE_sign Dot); [reflexivity|discriminate|].
    apply FE_name_then; auto. apply FE_sign; [reflexivity|discriminate|]. now apply IHv.
  - intros a i v l IHa IHi IHv H. open H. split.
    2:{ split; [apply FE_app; [now apply IHa|]; apply (FE_sign LeftBracket); [sg|sg|]|].
        - apply FE_app; [now apply IHi|]. apply FE_end; sg.
        - apply FE_sign; [sg|sg|]. now apply IHv. }
    eapply (FO_after a); [now apply IHa|reflexivity|reflexivity|reflexivity|reflexivity|]. intros j A. apply FE_app; auto.
    apply (FE_sign LeftBracket); [reflexivity|discriminate|]. apply FE_app; [now apply IHi|].
    apply (FE_sign RightBracket); [reflexivity|discriminate|]. apply FE_sign; [reflexivity|discriminate|]. now apply IHv.
  - intros v m l H. open H. split; [|exact I]. apply FO_closed; auto. cbn [type_expr]. apply FE_sign; [reflexivity|discriminate|].
    apply (FE_sign Dot); [reflexivity|discriminate|]. now apply FE_name.
  - intros x v l H. open H. split; [|exact I]. apply FO_closed; auto. cbn [type_expr]. destruct (String.eqb_spec x "this") as [->|N].
    + intros s d. apply FWord; auto; try (cbn; intuition discriminate). constructor.
    + match goal with G : _ \/ name x |- _ => destruct G as [E|E]; [congruence|] end. now apply FE_name.
  - intros op e l IH H. open H. split; [|exact I]. apply FO_closed; auto. cbn [type_expr].
    apply FE_sign; [now destruct op|now destruct op|]. now apply IH.
  - intros n s ms l IHs IHm H. open H.
    match goal with G : name n /\ _ |- _ => destruct G as (N & SU & MS) end. cbn [type_stmt].
    apply (FT_sign Class); [sg|sg|]. apply FT_name_then; auto. apply FT_app.
    { destruct s as [[]|]; try apply FT_nil. apply (FT_sign Less); [sg|sg|].
      apply FT_name_then; auto. apply FT_nil. }
    apply FE_T, FE_braces. apply FT_flat.
    apply W_flat in H.
    induction IHm as [|[m f] ms P F IH']; [constructor|]. inversion H; inversion MS; subst. constructor; auto.
    destruct f as [ps b k l']. apply FT_app.
    + destruct k; try apply FT_nil. apply FE_T, FE_end; sg.
    + apply FT_name_then; auto. apply FE_T. now apply P.
  - intros ps b k l IH H. open H. cbn [type_fun]. apply (FE_sign LeftParen); [sg|sg|].
    apply FSE_app.
    { apply FS_commas. apply Forall_map. eapply Forall_impl; [|eassumption]. intros p N. now apply FE_name. }
    apply (FE_sign RightParen); [sg|sg|]. apply FE_braces. now apply all_flow.
Qed.
Lemma program_flows l : Forall leafy (program_parts l) -> settled l -> FT (flat_map type_stmt l).
Proof.
  intros H [N G]. apply all_flow; auto.
  - apply Forall_forall. intros st _. apply type_flows.
  - unfold program_parts in *. unfold fine. rewrite Forall_forall in *. auto.
Qed.
End Flow.
