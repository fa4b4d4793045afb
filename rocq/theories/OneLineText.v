(** Programs that are written on one line. *)
From Coq Require Import ZArith Lia.
From Verif Require Import Base F64 Token Ast AstInd Scanner Parser SpecLex SpecTree SpecPrint SpecWrite SpecOneLine SpecNumber WriteTree WriteNumber WriteFinal
  SpecPlace SpecParse ParseProps ParseMore ParseFinal OneLineFinal.
Local Open Scope list_scope.

Definition dull (i : list token) : Prop := Forall (fun t => t_type t <> Terminator) i.
Lemma dull_app a b : dull a -> dull b -> dull (a ++ b).
Proof. intros. apply Forall_app. auto. Qed.
Lemma dull_cons t b : t_type t <> Terminator -> dull b -> dull (t :: b).
Proof. now constructor. Qed.
Lemma dull_commas l : Forall dull l -> dull (commas l).
Proof.
  induction 1 as [|a r A F IH]; cbn; [constructor|]. apply dull_app; auto. destruct r; [constructor|].
  apply dull_cons; [discriminate|]. exact IH.
Qed.
Lemma dull_flat {A} (f : A -> list token) l : Forall (fun a => dull (f a)) l -> dull (flat_map f l).
Proof. induction 1; cbn; [constructor|]. now apply dull_app. Qed.
Notation T := (Forall terse).
Lemma T_flat {A} (f : A -> list part) l : T (flat_map f l) -> Forall (fun a => T (f a)) l.
Proof. induction l as [|a l IH]; cbn; intros H; constructor; apply Forall_app in H; tauto. Qed.
Ltac split_terse := repeat match goal with
  | H : T (_ :: _) |- _ => apply Forall_cons_iff in H; destruct H as [? H]
  | H : T (_ ++ _) |- _ => apply Forall_app in H; destruct H as [? H]
  | H : T (flat_map _ _) |- _ => apply T_flat in H
  end.
Ltac dullness := repeat first
  [ assumption | apply dull_cons; [(discriminate || match goal with |- context [binary_token ?o] => destruct o; discriminate | |- context [unary_token ?o] => destruct o; discriminate end)|]
  | apply dull_app | apply dull_commas | apply dull_flat | constructor ].

Lemma map_dull m : Forall (fun kv => T (expr_parts (snd kv)) -> dull (print_expr (snd kv)) /\ dull (print_open (snd kv))) m ->
  Forall (fun kv => T (let (_, a) := kv : string * expr in expr_parts a)) m ->
  Forall dull (map (fun kv => match kv with (k, a) => string_tok k :: punct Colon :: print_expr a end) m).
Proof.
  induction 1 as [|[k e] m P F IH]; inversion 1; subst; constructor; auto.
  do 2 (apply dull_cons; [discriminate|]). now apply P.
Qed.
Lemma print_dull :
  (forall st, T (parts st) -> dull (print_stmt st)) /\
  (forall e, T (expr_parts e) -> dull (print_expr e) /\ dull (print_open e)) /\
  (forall c, T (class_parts c) -> dull (print_stmt (SClass c))) /\
  (forall f, T (fun_parts f) -> dull (print_fun f)).
Proof.
  assert (X : forall es, Forall (fun e => T (expr_parts e) -> dull (print_expr e) /\ dull (print_open e)) es ->
    Forall (fun e => T (expr_parts e)) es -> Forall dull (map print_expr es)).
  { intros es F H. apply Forall_map. eapply forall_mp; [eapply Forall_impl; [|exact F]; intros e K L; exact (proj1 (K L))|exact H]. }
  assert (Y : forall b, Forall (fun st => T (parts st) -> dull (print_stmt st)) b -> Forall (fun st => T (parts st)) b ->
    Forall (fun st => dull (print_stmt st)) b) by (intros b; apply forall_mp).
  apply tree_ind; intros; cbn [parts expr_parts class_parts fun_parts] in *; split_terse;
    cbn [terse] in *; try contradiction; cbn [print_stmt print_expr print_fun print_open];
    repeat match goal with
    | H : ?A -> ?B, a : ?A |- _ => specialize (H a)
    | H : _ /\ _ |- _ => destruct H
    end; try (split; [|try (now constructor)]); try solve [dullness; eauto].
  - destruct e; dullness; eauto.
  - dullness. destruct b; discriminate.
  - dullness. now apply map_dull.
  - dullness. now apply map_dull.
  - dullness. destruct op; discriminate.
  - dullness. destruct op; discriminate.
  - dullness. destruct (x =? "this")%string; discriminate.
  - dullness; [destruct s as [[]|]; dullness|].
    match goal with H : Forall _ ms |- _ => revert H end.
    match goal with H : Forall _ ms |- _ => induction H as [|[m [ps b k l']] ms' P F IH]; inversion 1; subst; constructor; auto end.
    apply dull_app; [destruct k; dullness|]. apply dull_cons; [discriminate|]. now apply P.
  - dullness; [|eauto]. apply Forall_map, Forall_forall. intros; dullness.
Qed.

Definition by_newline (i : list token) : Prop := exists a, dull a /\ (i = a \/ i = a ++ [newline]).
Lemma by_dull i : dull i -> by_newline i.
Proof. exists i. auto. Qed.
Lemma by_end i : dull i -> by_newline (i ++ [newline]).
Proof. exists i. auto. Qed.
Lemma by_app i j : dull i -> by_newline j -> by_newline (i ++ j).
Proof.
  intros D (a & A & H). exists (i ++ a). split; [now apply dull_app|].
  destruct H as [-> | ->]; [left|right]; auto. now rewrite app_assoc.
Qed.
Lemma by_cons t j : t_type t <> Terminator -> by_newline j -> by_newline (t :: j).
Proof. intros N. apply (by_app [t]). apply dull_cons; auto. constructor. Qed.
Lemma last_dull : forall st, terse_last st -> Forall no_empty_first (parts st) -> by_newline (print_stmt st).
Proof.
  destruct print_dull as (Ds & De & Dc & Df).
  fix IH 1. intros [b|?|c|?|e|[x f]|c a o|e|e ?|x s e l|c b|c b i]; cbn [terse_last]; intros H N;
    try (apply by_dull, Ds; exact H).
  - cbn [print_stmt]. apply (by_end [tok Break "break" _]). dullness.
  - cbn [print_stmt]. apply (by_end [tok Continue "continue" _]). dullness.
  - cbn [parts] in N. inversion N; subst. cbn [no_empty_first] in *. cbn [print_stmt].
    apply by_end. destruct (De e H) as [A B]. rewrite H2. cbn [negb]. now destruct (brace_first e).
  - cbn [parts] in N. inversion N as [|? ? _ N1]; subst. apply Forall_app in N1. destruct N1 as [_ N1].
    apply Forall_app in N1. destruct N1 as [N1 N2]. cbn [print_stmt]. do 2 (apply by_cons; [discriminate|]).
    destruct o as [o|]; destruct H as [H1 H2].
    + destruct H2 as [H2 H3]. apply by_app; [now apply De|]. apply by_cons; [discriminate|].
      apply by_app; [now apply Ds|]. apply by_cons; [discriminate|]. now apply IH.
    + apply by_app; [now apply De|]. apply by_cons; [discriminate|]. rewrite app_nil_r. now apply IH.
  - cbn [print_stmt]. apply (by_end (_ :: _)). apply dull_cons; [discriminate|]. now apply De.
  - cbn [print_stmt]. apply (by_end (_ :: _)). apply dull_cons; [discriminate|]. now apply De.
  - cbn [print_stmt]. apply (by_end (_ :: _ :: _ :: _)). do 3 (apply dull_cons; [discriminate|]). now apply De.
  - cbn [parts] in N. inversion N as [|? ? _ N1]; subst. apply Forall_app in N1. destruct N1 as [_ N1].
    destruct H as [H1 H2].
    cbn [print_stmt]. do 2 (apply by_cons; [discriminate|]). apply by_app; [now apply De|]. apply by_cons; [discriminate|]. now apply IH.
  - cbn [parts] in N. inversion N as [|? ? _ N1]; subst. apply Forall_app in N1. destruct N1 as [_ N1].
    apply Forall_app in N1. destruct N1 as [N1 N2].
    destruct H as (H1 & H2 & H3).
    cbn [print_stmt]. do 3 (apply by_cons; [discriminate|]). apply by_app; [now apply De|]. apply by_cons; [discriminate|].
    apply by_app; [now apply De|]. apply by_cons; [discriminate|]. now apply IH.
Qed.
Lemma terse_by l : terse_line l -> Forall no_empty_first (program_parts l) -> by_newline (flat_map print_stmt l).
Proof.
  destruct print_dull as (Ds & _).
  assert (X : forall l, T (program_parts l) -> dull (flat_map print_stmt l)).
  { intros l0 H. apply T_flat in H. apply dull_flat. eapply Forall_impl; [|exact H]. exact Ds. }
  intros [H|(l' & st & -> & H & H1)] N; [apply by_dull; auto|].
  rewrite flat_map_app. apply by_app; auto. cbn [flat_map]. rewrite app_nil_r. apply last_dull; auto.
  unfold program_parts in N. rewrite flat_map_app in N. apply Forall_app in N. destruct N as [_ N]. cbn in N.
  now rewrite app_nil_r in N.
Qed.

(** ** The text *)
Definition clean (t : token) : Prop := ~ In s_nl (chars (spell t)).
Lemma clean_chars p s : all_chars p s = true -> p 10%N = false -> ~ In s_nl (chars s).
Proof.
  unfold all_chars, chars. intros H N I. apply in_map_iff in I. destruct I as (c & E & I).
  rewrite forallb_forall in H. apply H in I. injection E as ->. cbn in I. congruence.
Qed.
Lemma clean_sign k l s : has_sign k = true -> clean (tok k s l).
Proof. unfold clean. destruct k; intros H; try discriminate H; cbn; intuition discriminate. Qed.
Lemma clean_this l : clean (tok This "this" l).
Proof. unfold clean. cbn. intuition discriminate. Qed.
Lemma clean_name x l : ascii_name x -> clean (name_tok x l).
Proof.
  destruct x as [|c r]; [contradiction|]. intros (A & B & _). unfold clean. cbn [spell name_tok tok t_type t_lexeme chars list_ascii_of_string map].
  intros [E|I].
  - injection E as ->. discriminate A.
  - revert I. eapply clean_chars; [exact B|reflexivity].
Qed.
Lemma clean_text s : line_text s -> clean (string_tok s).
Proof.
  intros [_ N]. unfold clean. cbn [spell string_tok t_type t_string]. rewrite quote_chars.
  intros [E|I]; [discriminate|]. apply in_app_or in I. destruct I as [I|[E|[]]]; [auto|discriminate].
Qed.
Lemma clean_digits s : digits s -> ~ In s_nl (chars s).
Proof.
  intros D I. unfold chars in I. apply in_map_iff in I. destruct I as (c & E & I). injection E as ->.
  apply D in I. cbn in I. lia.
Qed.
Lemma clean_number x : literal x -> clean (number_tok x).
Proof.
  intros L. destruct (number_text_reads x L) as (w & f & NE & Dw & Df & E & P).
  unfold clean. cbn [spell number_tok t_type t_float]. destruct E as [[-> _]|[-> _]]; [now apply clean_digits|].
  rewrite chars_app. intros I. apply in_app_or in I. destruct I as [I|[I|I]]; [revert I; now apply clean_digits|discriminate|].
  revert I. now apply clean_digits.
Qed.

Lemma write_clean s a s' rest : flows clean s a s' -> dull a ->
  exists x, chars (write (a ++ rest)) = x ++ chars (write rest) /\ ~ In s_nl x.
Proof.
  induction 1 as [s|t ts s' K KS KF F IH|s t ts s' K N N1 N2 F IH]; intros D.
  - exists nil. auto.
  - inversion D; contradiction.
  - inversion D; subst. destruct (IH H2) as (x & E & C).
    exists (chars (spell t) ++ chars (if abutting (ts ++ rest) then "" else " ")%string ++ x).
    assert (W : write ((t :: ts) ++ rest) =
      String.append (spell t) (String.append (if abutting (ts ++ rest) then "" else " ")%string (write (ts ++ rest)))).
    { cbn [app write]. destruct (t_type t); try reflexivity; congruence. }
    rewrite W, !chars_app, E, !app_assoc. split; auto.
    intros I. apply in_app_or in I. destruct I as [I|I]; auto. apply in_app_or in I. destruct I as [I|I]; [now apply K|].
    destruct (abutting _); cbn in I; intuition discriminate.
Qed.
Lemma flows_prefix Q s a b s' : flows Q s (a ++ b) s' -> exists s1, flows Q s a s1.
Proof.
  revert s. induction a as [|t a IH]; intros s H; [exists s; constructor|].
  cbn [app] in H. inversion H; subst.
  - destruct (IH false) as (s1 & X); [assumption|]. exists s1. now apply FNewline.
  - destruct (IH true) as (s1 & X); [assumption|]. exists s1. now apply FWord.
Qed.
Lemma in_removelast {A} (x : A) l : In x (removelast l) -> In x l.
Proof. induction l as [|a [|b l] IH]; cbn; auto; try tauto. Qed.
Lemma line_program_ascii l : line_program l -> ascii_program l.
Proof.
  unfold line_program, ascii_program. intros H. eapply Forall_impl; [|exact H].
  intros [[]|[]|[]|[]]; cbn [writable]; auto; unfold line_text; try tauto.
  intros F. eapply Forall_impl; [|exact F]. cbn. tauto.
Qed.
Theorem terse_single l : line_program l -> terse_line l -> single_line (chars (program_text l)).
Proof.
  intros P TL.
  destruct (program_flows clean _ _ _ clean_sign clean_this clean_name clean_text clean_number l P false) as (s' & F).
  assert (N : Forall no_empty_first (program_parts l)).
  { eapply Forall_impl; [|exact P]. intros [[]|[]|[]|[]]; cbn; auto. }
  destruct (terse_by l TL N) as (a & D & E). unfold program_text, print_program, single_line.
  destruct E as [E|E]; rewrite E in *.
  - destruct (write_clean _ _ _ [punct Eof] F D) as (x & -> & C). cbn. rewrite app_nil_r. intros I. now apply C, in_removelast.
  - destruct (flows_prefix _ _ _ _ _ F) as (s1 & F1). rewrite <- app_assoc.
    destruct (write_clean _ _ _ ([newline] ++ [punct Eof]) F1 D) as (x & -> & C).
    change (chars (write ([newline] ++ [punct Eof]))) with [s_nl]. now rewrite removelast_last.
Qed.

(** ** What cannot *)
Lemma no_return_line U oc x e lf lr k gs l : sane U -> valid_source gs -> single_line gs -> accepted U oc gs l ->
  map unplaced l <> map unplaced [SFun (NamedFun x (FunDef nil [SReturn e lr] k lf))].
Proof.
  intros Sn V SL A M. destruct (typed_line U Sn oc gs l V SL A) as [S _].
  destruct l as [|st [|]]; try discriminate M. apply (f_equal (hd (SBreak no_place))) in M. cbn [map hd] in M. destruct st as [| | | | |[y [ps b k' lf']]| | | | | |]; try discriminate M.
  cbn in M. injection M as -> M1 M2. destruct b as [|s [|]]; try discriminate M2.
  assert (M3 := f_equal (hd (SBreak no_place)) M2). cbn in M3. clear M2. rename M3 into M2.
  destruct s; try discriminate M2.
  refine (sayable_bodies _ (FunDef ps _ k' lf') (SReturn e0 l) S _ _).
  - cbn. right. left. reflexivity.
  - cbn. right. left. reflexivity.
Qed.

Theorem terse_typed U oc l : knows_ascii U -> well_formed l -> line_program l -> terse_line l ->
  single_line (chars (program_text l)) /\
  (exists l', parse_repl_line U oc (chars (program_text l)) = Done (Ok l') /\ map unplaced l' = map unplaced l) /\
  exists l', parse U oc (chars (program_text l)) = Done (Ok l') /\ map unplaced l' = map unplaced l.
Proof.
  intros K WF P TL. split; [now apply terse_single|]. assert (A := line_program_ascii l P).
  split; [exact (write_parse U K true oc l WF A)|exact (write_parse U K false oc l WF A)].
Qed.
(** For examples. *)
Definition line_part (p : part) : bool :=
  match p with
  | PExpr (EString s) => forallb (fun g => negb (String.eqb g s_nl)) (chars s)
  | PExpr (EMap m) => forallb (fun kv => forallb (fun g => negb (String.eqb g s_nl)) (chars (fst kv))) m
  | _ => true
  end.
Lemma no_newlineb s : forallb (fun g => negb (String.eqb g s_nl)) (chars s) = true -> ~ In s_nl (chars s).
Proof. intros H I. rewrite forallb_forall in H. apply H in I. discriminate I. Qed.
Lemma line_programb l : ascii_program l -> forallb line_part (program_parts l) = true -> line_program l.
Proof.
  unfold ascii_program, line_program. intros A B. rewrite Forall_forall in *. rewrite forallb_forall in B.
  intros p I. specialize (A p I). specialize (B p I). destruct p as [|[]|[]|[]]; auto; cbn [writable line_part] in *.
  - rewrite Forall_forall in *. rewrite forallb_forall in B. intros kv J. split; [now apply A|]. apply no_newlineb. now apply (B kv).
  - split; auto. now apply no_newlineb.
Qed.
Lemma no_newline_lineb gs : forallb (fun g => negb (String.eqb g s_nl)) (removelast gs) = true -> single_line gs.
Proof. intros H I. rewrite forallb_forall in H. apply H in I. discriminate I. Qed.
Definition terseb (p : part) : bool :=
  match p with
  | PStmt (SExpression _ | SPrint _ | SReturn _ _ | SBreak _ | SContinue _ | SVar _ _ _ _) => false
  | _ => true
  end.
Fixpoint terse_lastb (st : stmt) : bool :=
  match st with
  | SExpression e | SPrint e | SReturn e _ | SVar _ _ e _ => forallb terseb (expr_parts e)
  | SBreak _ | SContinue _ => true
  | SIf c a None => forallb terseb (expr_parts c) && terse_lastb a
  | SIf c a (Some b) => forallb terseb (expr_parts c) && (forallb terseb (parts a) && terse_lastb b)
  | SWhile c b => forallb terseb (expr_parts c) && terse_lastb b
  | SWhileIncrement c b i => forallb terseb (expr_parts c) && (forallb terseb (expr_parts i) && terse_lastb b)
  | _ => forallb terseb (parts st)
  end.
Lemma terseb_ok l : forallb terseb l = true -> T l.
Proof. apply forallb_ok. intros [[]| | |]; cbn; auto; discriminate. Qed.
Lemma terse_lastb_ok : forall st, terse_lastb st = true -> terse_last st.
Proof.
  fix IH 1. intros [| | | | | |? ? []| | | | |]; cbn [terse_last terse_lastb]; rewrite ?andb_true_iff;
    intuition auto using terseb_ok.
Qed.
Lemma terse_lineb l : match rev l with
    | nil => true
    | st :: r => forallb terseb (program_parts (rev r)) && terse_lastb st
    end = true -> terse_line l.
Proof.
  intros H. rewrite <- (rev_involutive l). destruct (rev l) as [|st r]; [left; constructor|].
  right. exists (rev r), st. apply andb_prop in H. destruct H. split; [reflexivity|]. split; [now apply terseb_ok|now apply terse_lastb_ok].
Qed.
