(** Trees are at most twice as large as the token streams they come from. *)
From Verif Require Import Base F64 Token Ast SpecGrammar SpecSize.

Definition entry_parts (kv : string * expr) : nat := match kv with (_, e) => S (expr_parts e) end.

Definition val_parts (v : val) : nat :=
  match v with
  | VE e => expr_parts e
  | VEs es => sum_of expr_parts es
  | VM m => sum_of entry_parts m + 2 * List.length m
  | VPs ps => List.length ps
  | VF f => fun_parts f
  | VS st => stmt_parts st
  | VO o => of_option stmt_parts o
  | VOE o => of_option expr_parts o
  | VSs l => sum_of stmt_parts l
  | VMs l => sum_of named_parts l
  end.

(** [this] followed by a colon: an empty map that uses up nothing. *)
Definition this_here (i : list token) : Prop :=
  exists t c i', i = t :: c :: i' /\ t_type t = This /\ t_type c = Colon.

(** What is there before, and what the tokens must pay for. *)
Definition before_of (N : sym) : nat :=
  match N with
  | BinaryTail _ e | CallTail e => expr_parts e
  | Condition => 1
  | _ => 0
  end.
Definition extra (N : sym) : nat :=
  match N with
  | Expression | Target | Binary _ | Unary | Call | Primary | Arguments | Elements | Block => 1
  | Statements _ | Methods _ => 2
  | _ => 0
  end.
Definition through (N : sym) : bool :=
  match N with
  | Expression | Target | Binary _ | BinaryTail _ _ | Unary | Call | CallTail _ | Primary
  | Arguments | Elements | Entries | Condition | Increment => true
  | _ => false
  end.

Lemma this_not ks i : this_here i -> ~ In This ks -> ~ starts ks i.
Proof. intros (t & c & i' & -> & Et & _) H. cbn. now rewrite Et. Qed.
Lemma this_token k i r : this_here i -> token_then k i r -> k = This.
Proof. intros (t & c & i' & -> & Et & _) (t' & E & E'). inversion E; subst. congruence. Qed.
Lemma this_paren i r : this_here i -> paren_then i r -> False.
Proof. intros H [T|T]; apply (this_token _ _ _ H) in T; discriminate. Qed.
Lemma this_name n i r : this_here i -> name_then n i r -> False.
Proof. intros (t & c & i' & -> & Et & _) (E & E'). inversion E; subst. congruence. Qed.
Lemma this_opens k i r : this_here i -> opens k i r -> False.
Proof. intros (t & c & i' & -> & Et & _) O. inversion O; subst; congruence. Qed.
Lemma this_entry i : this_here i -> entry_here i -> False.
Proof.
  intros (t & c & i' & -> & Et & _) (t' & c' & r & E & I & _). inversion E; subst.
  cbn in I. rewrite Et in I. now repeat destruct I as [I|I].
Qed.
Lemma this_separator i r : this_here i -> separator i r -> False.
Proof. intros H [T|[T _]]; apply (this_token _ _ _ H) in T; discriminate. Qed.
Lemma this_optional k i r : this_here i -> optional k i r -> k <> This -> r = i.
Proof. intros (t & c & i' & -> & Et & _) O N. inversion O; subst; congruence. Qed.

Lemma this_operator n t i f : this_here (t :: i) -> operator n (t_type t) = Some f -> False.
Proof.
  intros (t' & c & i' & E & Et & _) O. injection E as <- _. rewrite Et in O.
  do 6 (destruct n as [|n]; [discriminate O|]). discriminate O.
Qed.
Lemma this_key t i k : this_here (t :: i) -> key_of t k -> False.
Proof. intros (t' & c & i' & E & Et & _) [[H _]|[H _]]; injection E as <- _; congruence. Qed.
Lemma this_variable t i : this_here (t :: i) -> ~ starts [Colon] i -> False.
Proof. intros (t' & c & i' & E & Et & Ec) H. injection E as <- ->. apply H. now left. Qed.

Lemma len_token k i r : token_then k i r -> List.length i = S (List.length r).
Proof. now intros (t & -> & _). Qed.
Lemma len_paren i r : paren_then i r -> List.length i = S (List.length r).
Proof. intros [T|T]; exact (len_token _ _ _ T). Qed.
Lemma len_name n i r : name_then n i r -> List.length i = S (List.length r).
Proof. now intros (-> & _). Qed.
Lemma len_opens k i r : opens k i r -> S (List.length r) <= List.length i.
Proof. intros O. inversion O; subst; cbn; lia. Qed.
Lemma len_optional k i r : optional k i r -> List.length r <= List.length i.
Proof. intros O. inversion O; subst; cbn; lia. Qed.
Lemma len_separator i r : separator i r -> List.length i = S (List.length r).
Proof. intros [T|[T _]]; exact (len_token _ _ _ T). Qed.

Ltac impossible :=
  match goal with
  | H : token_then ?k ?i ?r, T : this_here ?i |- _ =>
    let E := fresh in assert (E : k = This) by (apply (this_token _ _ _ T H)); discriminate E
  | H : paren_then ?i ?r, T : this_here ?i |- _ => destruct (this_paren _ _ T H)
  | H : name_then _ ?i ?r, T : this_here ?i |- _ => destruct (this_name _ _ _ T H)
  | H : opens _ ?i ?r, T : this_here ?i |- _ => destruct (this_opens _ _ _ T H)
  | H : entry_here ?i, T : this_here ?i |- _ => destruct (this_entry _ T H)
  | H : separator ?i _, T : this_here ?i |- _ => destruct (this_separator _ _ T H)
  | H : starts ?ks ?i, T : this_here ?i |- _ =>
    exfalso; refine (this_not ks i T _ H); cbn; intuition discriminate
  | H : operator _ (t_type ?t) = Some _, T : this_here (?t :: _) |- _ =>
    destruct (this_operator _ _ _ _ T H)
  | H : key_of ?t _, T : this_here (?t :: _) |- _ => destruct (this_key _ _ _ T H)
  | T : this_here (_ :: _) |- _ =>
    let E := fresh "E" in let Et := fresh "Et" in
    destruct T as (? & ? & ? & E & Et & _); injection E as; subst;
    solve [rewrite Et in *; cbn in *; intuition congruence]
  end.
Ltac forward :=
  repeat match goal with
  | IH : this_here ?i -> _ /\ this_here _, T : this_here ?i |- _ =>
    let T' := fresh "T" in let E := fresh "E" in
    pose proof (IH T) as [E T']; clear IH; try discriminate E; clear E
  end.

Definition sym_ok (N : sym) : Prop :=
  match N with Statements k | Methods k => k <> This | _ => True end.
Lemma opens_ok k i r : opens k i r -> k <> This.
Proof. intros O. inversion O; subst; discriminate. Qed.

Lemma sum_of_cons {A} (f : A -> nat) x l : sum_of f (x :: l) = f x + sum_of f l.
Proof. reflexivity. Qed.
Lemma sum_of_nil {A} (f : A -> nat) : sum_of f nil = 0.
Proof. reflexivity. Qed.

Section Size.
Variable trailing : bool.

(** Where [this :] stands, an expression uses up nothing, and nothing else can stand there. *)
Lemma stuck : forall b N i v r, derives trailing b N i v r -> sym_ok N ->
  this_here i -> through N = true /\ this_here r.
Proof.
  induction 1; intros K T; cbn [through sym_ok] in *;
    repeat match goal with IH : True -> _ |- _ => specialize (IH I) end;
    repeat match goal with IH : (?k <> This) -> _, K : ?k <> This |- _ => specialize (IH K) end;
    try impossible; forward; try impossible; auto.
  - destruct (this_variable _ _ T H0).
  - destruct (K (this_token _ _ _ T H)).
  - destruct (K (this_token _ _ _ T H)).
Qed.

(** Either the tokens pay for the parts, or the derivation ends at a [this :]. *)
Definition paid (N : sym) (i : list token) (v : val) (r : list token) : Prop :=
  List.length r <= List.length i /\
  (val_parts v + extra N + 2 * List.length r <= before_of N + 2 * List.length i \/ this_here r).

Lemma operator_parts n k f a l b : operator n k = Some f ->
  expr_parts (f a l b) = S (expr_parts a + expr_parts b).
Proof.
  do 6 (destruct n as [|n]; [destruct k; intros E; try discriminate E; injection E as <-; reflexivity|]).
  discriminate.
Qed.
Lemma assigned_parts a b l x : assigned a b l = Some x -> expr_parts x <= expr_parts a + expr_parts b.
Proof.
  destruct a; cbn; try discriminate.
  - intros E. injection E as <-. cbn. lia.
  - intros E. injection E as <-. cbn. lia.
  - destruct (String.eqb _ _); [discriminate|]. intros E. injection E as <-. cbn. lia.
Qed.
Lemma with_kind_parts k f : fun_parts (with_kind k f) = fun_parts f.
Proof. now destruct f. Qed.
Lemma for_parts o c inc st : stmt_parts (for_tree o c inc st) <=
  2 + of_option stmt_parts o + expr_parts c + of_option expr_parts inc + stmt_parts st.
Proof. destruct o, inc; cbn; lia. Qed.

Lemma entries_nonempty b i m r : derives trailing b Entries i (VM m) r -> entry_here i -> 1 <= List.length m.
Proof. intros D E. inversion D; subst; cbn; try lia. contradiction. Qed.

Definition kept (P : Prop) : Prop := P.
Ltac lengths :=
  repeat match goal with
  | H : token_then ?k ?i ?r |- _ => pose proof (len_token _ _ _ H); change (kept (token_then k i r)) in H
  | H : paren_then ?i ?r |- _ => pose proof (len_paren _ _ H); change (kept (paren_then i r)) in H
  | H : name_then ?n ?i ?r |- _ => pose proof (len_name _ _ _ H); change (kept (name_then n i r)) in H
  | H : separator ?i ?r |- _ => pose proof (len_separator _ _ H); change (kept (separator i r)) in H
  | H : opens ?k ?i ?r |- _ =>
    pose proof (len_opens _ _ _ H); pose proof (opens_ok _ _ _ H); change (kept (opens k i r)) in H
  | H : optional ?k ?i ?r |- _ => pose proof (len_optional _ _ _ H); change (kept (optional k i r)) in H
  end;
  unfold kept in *.

Lemma tree_size : forall b N i v r, derives trailing b N i v r -> sym_ok N -> paid N i v r.
Proof.
  induction 1; intros K; cbn [sym_ok] in *;
    lengths;
    repeat match goal with IH : True -> _ |- _ => specialize (IH I) end;
    repeat match goal with IH : (?k <> This) -> _, K : ?k <> This |- _ => specialize (IH K) end;
    repeat match goal with
    | IH : RightBrace <> This -> _ |- _ => specialize (IH ltac:(discriminate)) end;
    try match goal with
    | E : entry_here ?i, D : derives trailing _ Entries ?i _ _ |- _ =>
      pose proof (entries_nonempty _ _ _ _ D E)
    end;
    repeat match goal with
    | H : derives trailing ?b ?N ?i ?v ?r |- _ =>
      let K' := fresh "St" in
      assert (K' : this_here i -> through N = true /\ this_here r)
        by (apply (stuck _ _ _ _ _ H); cbn; auto; discriminate);
      cbn [through] in K'; clear H
    end;
    unfold paid in *; cbn [List.length] in *;
    repeat match goal with H : _ /\ (_ \/ this_here _) |- _ => destruct H as [? [?|?]] end;
    forward; try impossible;
    try (split; [lia|]; first [right; assumption | right; solve [do 3 eexists; split; [reflexivity|auto]] | left];
    cbn [val_parts extra before_of expr_parts stmt_parts class_parts named_parts fun_parts
         of_option List.length] in *;
    change (fun kv : string * expr => let (_, e) := kv in S (expr_parts e)) with entry_parts in *;
    rewrite ?sum_of_cons, ?sum_of_nil in *; cbn [entry_parts named_parts] in *;
    rewrite ?with_kind_parts in *; try lia).
  - pose proof (assigned_parts _ _ _ _ H2). lia.
  - assert (r2 = r1) as -> by (apply (this_optional _ _ _ H6 H1); discriminate). impossible.
  - rewrite (operator_parts _ _ _ _ _ _ H) in H1. lia.
  - destruct for_init; [|destruct H3 as [H3|(_ & _ & ->)]]; try apply len_token in H3;
      cbn [val_parts extra before_of expr_parts stmt_parts] in *; lia.
  - destruct for_init; [impossible|destruct H3 as [H3|(_ & _ & ->)]]; [impossible|].
    split; [lia|]. now right.
  - match goal with |- context [for_tree ?o ?c ?inc ?st] => pose proof (for_parts o c inc st) end. lia.
Qed.

Lemma nothing_here k : k <> This -> forall i, starts [k] i -> ~ this_here i.
Proof. intros K i H T. refine (this_not _ _ T _ H). cbn. intuition congruence. Qed.

Theorem program_bound b i l r : derives trailing b Program i (VSs l) r ->
  program_size l + 2 * List.length r <= 2 * List.length i.
Proof.
  intros D. destruct (tree_size _ _ _ _ _ D I) as [_ [H|T]].
  - cbn [val_parts extra before_of] in H. unfold program_size. lia.
  - exfalso. remember Program as N eqn:EN. remember (VSs l) as v eqn:Ev. revert l Ev T.
    induction D; try discriminate EN; intros l0 Ev T; subst.
    + exact (nothing_here Eof ltac:(discriminate) _ H T).
    + eapply IHD2; eauto.
Qed.
Theorem expression_bound b i e eof : derives trailing b Expression i (VE e) [eof] ->
  expr_parts e + 3 <= 2 * List.length i.
Proof.
  intros D. destruct (tree_size _ _ _ _ _ D I) as [_ [H|(t & c & i' & E & _)]]; [|discriminate].
  cbn [val_parts extra before_of List.length] in H. lia.
Qed.
End Size.
