(** What derivations start with and use up. *)
From Verif Require Import Base F64 Token Ast SpecGrammar.
From Coq Require Import Lia.

Definition primary_first : list token_type :=
  [TFalse; TTrue; Nil; Number; TString; Identifier; This; Fun; LeftParen; LeftParenAbutting;
   LeftBrace; LeftBracket; Super].
Definition unary_first : list token_type := Bang :: Minus :: primary_first.
Definition expr_first : list token_type := Indent :: unary_first.
Definition stmt_first : list token_type :=
  [Break; Continue; For; If; LeftBrace; Print; Return; While] ++ expr_first.
Definition decl_first : list token_type := [Class; Var] ++ stmt_first.

Lemma starts_incl : forall ks ks' i, starts ks i -> incl ks ks' -> starts ks' i.
Proof. intros ks ks' [|t i] H L; cbn in *; auto. Qed.
Lemma starts_not : forall ks ks' i, starts ks i -> (forall k, In k ks -> In k ks' -> False) ->
  ~ starts ks' i.
Proof. intros ks ks' [|t i] H L H'; cbn in *; eauto. Qed.
Lemma starts_then : forall k ks i r, token_then k i r -> In k ks -> starts ks i.
Proof. intros k ks i r (t & -> & <-) H. exact H. Qed.
Lemma starts_name : forall t ks i r, name_then t i r -> In Identifier ks -> starts ks i.
Proof. intros t ks i r (-> & K) H. cbn. now rewrite K. Qed.

Definition first_of (N : sym) : list token_type :=
  match N with
  | Expression | Target | Arguments | Elements | ExpressionStatement => expr_first
  | Binary _ | Unary => unary_first
  | Call | Primary => primary_first
  | Statement => stmt_first
  | Declaration => decl_first
  | Parameters | VarDeclaration _ => [Identifier]
  | Function _ => [LeftParen; LeftParenAbutting]
  | Block => [Terminator; LeftBrace]
  | Branch => Terminator :: stmt_first
  | ForInit => Semicolon :: Var :: expr_first
  | Condition => Semicolon :: expr_first
  | Increment => RightParen :: expr_first
  | _ => nil
  end.

Lemma in_b : forall k ks, existsb (tt_eqb k) ks = true -> In k ks.
Proof.
  intros k ks H. apply existsb_exists in H. destruct H as (x & I & E). unfold tt_eqb in E.
  destruct (token_type_eq_dec k x); [now subst|discriminate].
Qed.
Lemma incl_b : forall ks ks', forallb (fun k => existsb (tt_eqb k) ks') ks = true -> incl ks ks'.
Proof. intros ks ks' H k I. rewrite forallb_forall in H. apply in_b. auto. Qed.
Ltac inb := apply in_b; reflexivity.
Ltac inclb := apply incl_b; reflexivity.
Lemma first : forall trailing b N i v r, derives trailing b N i v r ->
  first_of N <> nil -> starts (first_of N) i.
Proof.
  assert (W : forall t ks ks' (i : list token), t_type t = ks -> In ks ks' -> starts ks' (t :: i))
    by (intros t ks ks' i <- H; exact H).
  assert (PR : forall i i1 ks, paren_then i i1 -> incl [LeftParen; LeftParenAbutting] ks -> starts ks i).
  { intros i i1 ks [P|P] L; eapply starts_then; eauto; apply L; cbn; auto. }
  induction 1; intros NE; cbn [first_of] in *; try (now elim NE);
    try (eapply starts_incl; [apply IHderives; discriminate|inclb]; fail);
    try (eapply starts_incl; [apply IHderives1; discriminate|inclb]; fail);
    try (eapply starts_then; [eassumption|inb]; fail);
    try (eapply starts_name; [eassumption|inb]; fail);
    try (eapply W; [eassumption|inb]; fail);
    try (eapply starts_incl; [eassumption|inclb]; fail);
    try (eapply PR; [eassumption|inclb]; fail).
  - destruct (t_type t) eqn:K; try discriminate; cbn [starts]; rewrite K; inb.
  - destruct H as (t & c & q & -> & [I|[I|[]]] & _); cbn [starts]; rewrite <- I; inb.
  - destruct H as [t u j H H'|t j H]; cbn [starts]; rewrite H; inb.
Qed.

Lemma not_first : forall trailing b N i v r ks, derives trailing b N i v r ->
  first_of N <> nil -> forallb (fun k => negb (existsb (tt_eqb k) (first_of N))) ks = true ->
  ~ starts ks i.
Proof.
  intros trailing b N i v r ks H NE F S. apply first in H; auto.
  destruct i as [|t i]; cbn [starts] in *; auto. rewrite forallb_forall in F. specialize (F _ S).
  apply negb_true_iff in F. assert (existsb (tt_eqb (t_type t)) (first_of N) = true); [|congruence].
  apply existsb_exists. exists (t_type t). split; auto. unfold tt_eqb.
  now destruct (token_type_eq_dec (t_type t) (t_type t)).
Qed.

(** ** What is used up *)
Definition suffix (i r : list token) : Prop := exists p, i = p ++ r.
Lemma suffix_refl : forall i, suffix i i.
Proof. intros i. exists nil. reflexivity. Qed.
Lemma suffix_trans : forall i j r, suffix i j -> suffix j r -> suffix i r.
Proof. intros i j r [p ->] [q ->]. exists (p ++ q). now rewrite app_assoc. Qed.
Lemma suffix_cons : forall t i r, suffix i r -> suffix (t :: i) r.
Proof. intros t i r [p ->]. exists (t :: p). reflexivity. Qed.
Lemma suffix_then : forall k i r, token_then k i r -> suffix i r.
Proof. intros k i r (t & -> & _). apply suffix_cons, suffix_refl. Qed.
Lemma suffix_name : forall t i r, name_then t i r -> suffix i r.
Proof. intros t i r (-> & _). apply suffix_cons, suffix_refl. Qed.
Lemma suffix_paren : forall i r, paren_then i r -> suffix i r.
Proof. intros i r [P|P]; eapply suffix_then; eauto. Qed.
Lemma suffix_opens : forall k i r, opens k i r -> suffix i r.
Proof. intros k i r [t u j _ _|t j _]; repeat apply suffix_cons; apply suffix_refl. Qed.
Lemma suffix_optional : forall k i r, optional k i r -> suffix i r.
Proof. intros k i r [t j _|j _]; [apply suffix_cons|]; apply suffix_refl. Qed.
Lemma suffix_separator : forall i r, separator i r -> suffix i r.
Proof. intros i r [P|[P _]]; eapply suffix_then; eauto. Qed.
Lemma suffix_le : forall i r, suffix i r -> length r <= length i.
Proof. intros i r [p ->]. rewrite app_length. lia. Qed.
Lemma then_length : forall k i r, token_then k i r -> length i = S (length r).
Proof. intros k i r (t & -> & _). reflexivity. Qed.
Lemma name_length : forall t i r, name_then t i r -> length i = S (length r).
Proof. intros t i r (-> & _). reflexivity. Qed.
Lemma paren_length : forall i r, paren_then i r -> length i = S (length r).
Proof. intros i r [P|P]; eapply then_length; eauto. Qed.
Lemma opens_length : forall k i r, opens k i r -> length r < length i.
Proof. intros k i r [t u j _ _|t j _]; cbn; lia. Qed.
Lemma separator_length : forall i r, separator i r -> length i = S (length r).
Proof. intros i r [P|[P _]]; eapply then_length; eauto. Qed.
Lemma optional_length : forall k i r, optional k i r -> length r <= length i.
Proof. intros k i r [t j _|j _]; cbn; lia. Qed.

Create HintDb suf.
#[global] Hint Resolve suffix_refl suffix_cons suffix_then suffix_name suffix_paren suffix_opens
  suffix_optional suffix_separator : suf.
Ltac suf := match goal with
  | |- suffix ?i ?i => apply suffix_refl
  | |- suffix (_ :: ?i) ?r => apply suffix_cons; suf
  | H : suffix ?i ?j |- suffix ?i ?r => apply (suffix_trans i j r H); clear H; suf
  | H : token_then _ ?i ?j |- suffix ?i ?r => apply (suffix_trans i j r (suffix_then _ _ _ H)); clear H; suf
  | H : name_then _ ?i ?j |- suffix ?i ?r => apply (suffix_trans i j r (suffix_name _ _ _ H)); clear H; suf
  | H : paren_then ?i ?j |- suffix ?i ?r => apply (suffix_trans i j r (suffix_paren _ _ H)); clear H; suf
  | H : opens _ ?i ?j |- suffix ?i ?r => apply (suffix_trans i j r (suffix_opens _ _ _ H)); clear H; suf
  | H : optional _ ?i ?j |- suffix ?i ?r => apply (suffix_trans i j r (suffix_optional _ _ _ H)); clear H; suf
  | H : separator ?i ?j |- suffix ?i ?r => apply (suffix_trans i j r (suffix_separator _ _ H)); clear H; suf
  end.
Lemma derives_suffix : forall trailing b N i v r, derives trailing b N i v r -> suffix i r.
Proof.
  induction 1; try (destruct for_init); try suf.
  assert (S1 : suffix r1 r) by (destruct H3 as [H3|(_ & _ & ->)]; suf). suf.
Qed.
Lemma derives_length : forall trailing b N i v r, derives trailing b N i v r -> length r <= length i.
Proof. intros. eapply suffix_le, derives_suffix; eauto. Qed.

(** Expressions use up a token, except [this] before a colon. *)
Definition consumes (N : sym) : Prop :=
  match N with
  | Expression | Target | Binary _ | Unary | Call | Primary | Arguments | Elements => True
  | _ => False
  end.
Definition stays (N : sym) : Prop :=
  match N with CallTail _ | BinaryTail _ _ => True | _ => False end.
Lemma entries_move : forall trailing b i v r, derives trailing b Entries i v r -> entry_here i ->
  length r < length i.
Proof.
  intros trailing b i v r H E. inversion H; subst; [contradiction| |];
    repeat match goal with
    | H : separator _ _ |- _ => apply separator_length in H
    | H : derives _ _ _ _ _ _ |- _ => apply derives_length in H
    end; cbn [length] in *; lia.
Qed.
Lemma derives_moves : forall trailing b N i v r, derives trailing b N i v r ->
  (consumes N -> length r < length i \/ (r = i /\ starts [This] i)) /\
  (stays N -> length r < length i \/ r = i).
Proof.
  induction 1; cbn [consumes stays]; (split; [intros C|intros C]); try contradiction;
    repeat match goal with IH : (_ -> _) /\ (_ -> _) |- _ => destruct IH end; auto;
    repeat match goal with
    | IH : consumes ?N -> _ |- _ => cbn [consumes] in IH; first [specialize (IH I)|clear IH]
    | IH : stays ?N -> _ |- _ => cbn [stays] in IH; first [specialize (IH I)|clear IH]
    end;
    try (left; eapply entries_move; eassumption);
    repeat match goal with
    | H : token_then _ _ _ |- _ => apply then_length in H
    | H : name_then _ _ _ |- _ => apply name_length in H
    | H : paren_then _ _ |- _ => apply paren_length in H
    | H : optional _ _ _ |- _ => apply optional_length in H
    | H : derives _ _ _ _ _ _ |- _ => apply derives_length in H
    end; cbn [length] in *; try (left; lia).
  - destruct H4 as [?|[-> ?]]; [left; lia|]. destruct H3 as [?| ->]; [left; lia|auto].
  - destruct H3 as [?|[-> ?]]; [left; lia|]. destruct H2 as [?| ->]; [left; lia|auto].
  - destruct H5 as [?|[-> H5]]; [left; lia|]. exfalso. cbn in H5. destruct H5 as [H5|[]].
    rewrite <- H5 in H. revert H. cbn. intuition discriminate.
  - right. split; auto. cbn. auto.
Qed.
(** Statements always read something. *)
Lemma statement_moves : forall trailing b N i v r, derives trailing b N i v r ->
  match N with ExpressionStatement | Statement | Declaration => True | _ => False end ->
  length r < length i.
Proof.
  induction 1; intros C; try contradiction; try (apply IHderives; exact I);
    repeat match goal with
    | H : token_then _ _ _ |- _ => apply then_length in H
    | H : name_then _ _ _ |- _ => apply name_length in H
    | H : paren_then _ _ |- _ => apply paren_length in H
    | H : opens _ _ _ |- _ => apply opens_length in H
    end.
  all: try (repeat match goal with H : derives _ _ _ _ _ _ |- _ => apply derives_length in H end;
    cbn [length] in *; lia).
  destruct (proj1 (derives_moves _ _ _ _ _ _ H) I) as [M|[-> M]]; auto. exfalso.
  destruct i as [|t i]; [contradiction|]. cbn in *. destruct M as [M|[]], H1 as [N|[]]. congruence.
Qed.
