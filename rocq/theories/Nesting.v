(** Parentheses can be nested without limit, and the parser then calls itself as often. *)
From Verif Require Import Base F64 Token Ast Scanner Parser SpecLex SpecLayout SpecScan SpecGrammar SpecSize
  ScanLex ScanLayout ScanFinal SpecParse ParseProps ParseTop ParseFinal.
Local Open Scope string_scope.
Local Open Scope list_scope.

Section Depth.
Variable toks : list token.
Variables tr oc : bool.

Lemma paren_reenters (er : P expr) (dr : P stmt) p t s :
  nth_error toks p = Some t -> In (t_type t) [LeftParen; LeftParenAbutting] ->
  er (mkP (S p) s) = PFuel -> expression toks oc er dr (mkP p s) = PFuel.
Proof.
  intros E I F.
  assert (Q : primary toks oc er dr (mkP p s) = PFuel).
  { unfold primary, gets, pbind, peek. cbn [cur]. rewrite E.
    destruct I as [I|[I|[]]]; rewrite <- I; unfold advance, advance_st, is_at_end, peek; cbn [cur];
      rewrite E, <- I; cbn [tt_eqb]; cbn; replace (p + 1) with (S p) by lia; now rewrite F. }
  assert (C : call toks oc er dr (mkP p s) = PFuel) by (unfold call, pbind; now rewrite Q).
  assert (Un : unary toks oc er dr (mkP p s) = PFuel).
  { unfold unary, loop_fuel. cbn [unary_fuel]. unfold matches, gets, pbind, peek. cbn [cur]. rewrite E.
    destruct I as [I|[I|[]]]; rewrite <- I; cbn; exact C. }
  assert (M : multiplication toks oc er dr (mkP p s) = PFuel) by (unfold multiplication, pbind; now rewrite Un).
  assert (A : addition toks oc er dr (mkP p s) = PFuel) by (unfold addition, pbind; now rewrite M).
  assert (Co : comparison toks oc er dr (mkP p s) = PFuel) by (unfold comparison, pbind; now rewrite A).
  assert (Eq : equality toks oc er dr (mkP p s) = PFuel) by (unfold equality, pbind; now rewrite Co).
  assert (An : and_ toks oc er dr (mkP p s) = PFuel) by (unfold and_, pbind; now rewrite Eq).
  assert (O : or_ toks oc er dr (mkP p s) = PFuel) by (unfold or_, pbind; now rewrite An).
  unfold expression, assignment, match_token, check, check_st, gets, pbind, peek. cbn [cur].
  assert (T : tok_is (nth_error toks p) Indent = false).
  { rewrite E. cbn. destruct I as [I|[I|[]]]; rewrite <- I; reflexivity. }
  unfold peek. cbn [cur]. rewrite T, andb_false_r. cbn. now rewrite O.
Qed.

(** At [n] parentheses in a row, [n] nested calls are not enough. *)
Lemma deep n : forall p s,
  (forall k, k < n -> exists t, nth_error toks (p + k) = Some t /\ In (t_type t) [LeftParen; LeftParenAbutting]) ->
  k_expr (level toks tr oc n) (mkP p s) = PFuel.
Proof.
  induction n as [|n IH]; intros p s H; cbn [level k_expr]; [reflexivity|].
  destruct (H 0 ltac:(lia)) as (t & E & I). rewrite Nat.add_0_r in E.
  apply (paren_reenters _ _ p t s E I). apply IH. intros k L.
  destruct (H (S k) ltac:(lia)) as (t' & E' & I'). exists t'. split; auto. now rewrite <- E', Nat.add_succ_r.
Qed.
End Depth.

(** ** The source *)
Definition parens (n : nat) : list string := repeat "(" n ++ ["x"] ++ repeat ")" n.
Definition paren (k : token_type) (g : string) : elem := Tok k [g] None None.
Definition paren_elems (n : nat) : list elem :=
  repeat (paren LeftParen "(") n ++ [paren Identifier "x"] ++ repeat (paren RightParen ")") n ++ [Newline].

Lemma lexes_repeat U e n : forall rest es,
  (forall r, lexeme U e r) -> lexes U rest es ->
  lexes U (flat_map (fun _ => elem_text e) (repeat tt n) ++ rest) (repeat e n ++ es).
Proof.
  induction n as [|n IH]; intros rest es L H; cbn [repeat flat_map app]; auto.
  rewrite <- app_assoc. constructor; auto.
Qed.
Lemma flat_repeat (g : string) n : flat_map (fun _ : unit => cons g nil) (repeat tt n) = repeat g n.
Proof. induction n; cbn; congruence. Qed.

Lemma parens_lex U n : u_alphabetic U 120 = true -> u_alphanumeric U 41 = false -> sane U ->
  lexes U (parens n ++ [s_nl]) (paren_elems n).
Proof.
  intros Ux Uc Sn. unfold parens, paren_elems. rewrite <- app_assoc.
  rewrite <- (flat_repeat "(" n). apply (lexes_repeat U (paren LeftParen "(")).
  { intros r. apply LPunct. cbn. auto. }
  rewrite <- app_assoc. apply (LexCons U (paren Identifier "x")).
  { apply LWord; cbn.
    - cbn. intuition discriminate.
    - cbn. intuition discriminate.
    - exists 120%N. split; [reflexivity|]. now left.
    - constructor.
    - destruct n as [|n]; cbn.
      + intros (c & E & D). vm_compute in E. injection E as <-. unfold sane in Sn.
        destruct D as [D|D]; [congruence|discriminate].
      + intros (c & E & D). vm_compute in E. injection E as <-.
        destruct D as [D|D]; [congruence|discriminate].
    - apply WIdentifier. cbn. intuition discriminate. }
  rewrite <- (flat_repeat ")" n). apply (lexes_repeat U (paren RightParen ")")).
  { intros r. apply LPunct. cbn. auto. }
  exact (LexCons U Newline nil nil (LNewline U nil) (LexNil U)).
Qed.

Definition tok_elem (e : elem) : Prop := match e with Tok _ _ _ _ => True | _ => False end.

Lemma split_toks es : forall acc b, Forall tok_elem es ->
  split_lines acc (place b (es ++ [Newline])) =
  [mkLine (acc ++ place b es) (ByNewline (b ++ text_of es)); mkLine nil ByEof].
Proof.
  induction es as [|e es IH]; intros acc b F; cbn [app place split_lines].
  - cbn. now rewrite !app_nil_r.
  - inversion F; subst. destruct e; try contradiction. rewrite IH by assumption.
    cbn [text_of flat_map elem_text]. now rewrite <- !app_assoc.
Qed.
Lemma errors_toks es : forall b, Forall tok_elem es -> elems_errors (place b es) = nil.
Proof.
  induction es as [|e es IH]; intros b F; cbn [place elems_errors flat_map]; auto.
  inversion F; subst. destruct e; try contradiction. cbn. now apply IH.
Qed.
Lemma place_app_ a : forall b c, place b (a ++ c) = place b a ++ place (b ++ text_of a) c.
Proof.
  induction a as [|e a IH]; intros b c; cbn [app place].
  - now rewrite app_nil_r.
  - rewrite IH. cbn [text_of flat_map]. now rewrite app_assoc.
Qed.

Definition closed (k : token_type) : Prop := k = RightParen \/ k = Terminator.

Section Nest.
Variable tr : bool.

Lemma lift_expression b i e r : derives tr b Primary i (VE e) r ->
  starts [RightParen; Terminator] r -> derives tr b Expression i (VE e) r.
Proof.
  intros D St. destruct r as [|t r]; [destruct St|].
  assert (St' : t_type t = RightParen \/ t_type t = Terminator) by (cbn in St; intuition congruence).
  assert (C : derives tr b Call i (VE e) (t :: r)).
  { eapply d_call; [exact D|]. apply d_call_end. cbn. destruct St' as [-> | ->]; intuition discriminate. }
  assert (B : forall n, derives tr b (Binary (6 - n)) i (VE e) (t :: r)).
  { induction n as [|n IH]; [apply d_binary_top, d_unary_call, C|].
    destruct (le_lt_dec 6 n) as [L|L].
    - replace (6 - S n) with (6 - n) by lia. exact IH.
    - eapply d_binary; [unfold top_level; lia| |].
      + replace (S (6 - S n)) with (6 - n) by lia. exact IH.
      + apply d_tail_end. cbn.
        do 6 (destruct n as [|n]; [destruct St' as [-> | ->]; reflexivity|]). lia. }
  apply d_expression; [apply d_target; exact (B 6)|]. cbn. destruct St' as [-> | ->]; intuition discriminate.
Qed.

Definition x_at (l : source_loc) : expr := EVariable "x" var_placeholder l.
Definition inner (n : nat) : list elem :=
  repeat (paren LeftParen "(") n ++ [paren Identifier "x"] ++ repeat (paren RightParen ")") n.

Lemma nest_derives n : forall prev b r,
  starts [RightParen; Terminator] r ->
  derives tr false Primary (elems_tokens prev (place b (inner n)) ++ r)
    (VE (grouped n (x_at (position (b ++ repeat "(" n))))) r.
Proof.
  induction n as [|n IH]; intros prev b r St.
  - cbn. rewrite app_nil_r. refine (d_variable tr false (mk_at Identifier "x" None None (position b)) r _ _).
    + now left.
    + destruct r as [|t r]; [auto|]. cbn in *. intuition congruence.
  - assert (E : inner (S n) = paren LeftParen "(" :: inner n ++ [paren RightParen ")"]).
    { unfold inner. cbn [repeat app]. f_equal. rewrite <- !app_assoc. f_equal. cbn [app]. f_equal.
      now rewrite repeat_cons. }
    rewrite E. cbn [place elems_tokens]. rewrite place_app_, elems_tokens_app.
    cbn [place elems_tokens elem_tokens paren app].
    rewrite <- !app_assoc. cbn [app grouped]. change (repeat "(" (S n)) with ("(" :: repeat "(" n).
    eapply d_grouping.
    + instantiate (1 := (elems_tokens (Some (paren LeftParen "(")) (place (b ++ elem_text (paren LeftParen "(")) (inner n)) ++ _ :: r)%list).
      unfold paren_then, token_then. destruct (abuts prev); [right|left]; eexists; split; reflexivity.
    + apply lift_expression.
      * cbn [elem_text paren]. replace (b ++ "(" :: repeat "(" n)%list with ((b ++ ["("]) ++ repeat "(" n)%list
          by (now rewrite <- app_assoc).
        apply IH. now left.
      * now left.
    + eexists. split; reflexivity.
Qed.
End Nest.

Section Final.
Variable U : unicode.
Hypothesis Sn : sane U.
Hypothesis Ux : u_alphabetic U 120 = true.
Hypothesis Uc : u_alphanumeric U 41 = false.
Variable n : nat.

Lemma parens_valid : valid_source (parens n ++ [s_nl]).
Proof.
  unfold parens, valid_source. rewrite !Forall_app. repeat split.
  - apply Forall_forall. intros g H. apply repeat_spec in H. subst. vm_compute. now left.
  - repeat constructor.
  - apply Forall_forall. intros g H. apply repeat_spec in H. subst. vm_compute. now left.
  - repeat constructor.
Qed.

Definition nest_tokens : list token :=
  elems_tokens None (place nil (inner n)) ++
  [mk_at Terminator s_nl None None (position (parens n))] ++ closing 0 (parens n ++ [s_nl]).

Lemma inner_text : text_of (inner n) = parens n.
Proof.
  unfold text_of, inner, parens. rewrite !flat_map_app. f_equal; [|f_equal].
  - induction n as [|m IH]; cbn; congruence.
  - induction n as [|m IH]; cbn; congruence.
Qed.
Lemma inner_toks : Forall tok_elem (inner n).
Proof.
  unfold inner. rewrite !Forall_app. repeat split.
  - apply Forall_forall. intros g H. apply repeat_spec in H. now subst.
  - repeat constructor.
  - apply Forall_forall. intros g H. apply repeat_spec in H. now subst.
Qed.
Lemma content_inner : content (place nil (inner n)) = place nil (inner n) /\ leading (place nil (inner n)) = nil /\
  exists p r, place nil (inner n) = p :: r /\ is_comment_line (p :: r) = false.
Proof.
  unfold inner. destruct n; cbn; repeat (split; [reflexivity|]); do 2 eexists; split; reflexivity.
Qed.
Lemma inner_end : continuing (place nil (inner n)) = false.
Proof.
  unfold continuing. destruct n as [|m].
  - reflexivity.
  - unfold inner. change (repeat (paren RightParen ")") (S m)) with (paren RightParen ")" :: repeat (paren RightParen ")") m).
    rewrite repeat_cons, !app_assoc, place_app_, rev_app_distr. reflexivity.
Qed.

Lemma nest_scan : scan_tokens U (parens n ++ [s_nl]) = Done (Ok nest_tokens).
Proof.
  rewrite (scan_correct U Sn _ _ parens_valid (parens_lex U n Ux Uc Sn)). unfold scan_spec.
  replace (paren_elems n) with (inner n ++ [Newline])
    by (unfold paren_elems, inner; now rewrite <- !app_assoc).
  rewrite split_toks by apply inner_toks. cbn [app layout body ending].
  destruct content_inner as (C & L & p & r & Ep & Cm).
  assert (Oi : open_line nil false (indentation (place nil (inner n))) p = Some (nil, nil, nil)).
  { unfold indentation. rewrite L. now destruct p. }
  unfold terminator, joins_next. cbn [body ending]. rewrite C, L. rewrite Ep at 1. rewrite Oi.
  rewrite inner_end, inner_text.
  rewrite errors_toks by apply inner_toks. unfold nest_tokens. rewrite Ep. rewrite Cm.
  cbn -[elems_tokens closing position]. now rewrite <- !app_assoc.
Qed.

Definition nest_tree : expr := grouped n (x_at (position (repeat "(" n))).

Theorem nest_parse oc : parse U oc (parens n ++ [s_nl]) = Done (Ok [SExpression nest_tree]).
Proof.
  apply (parse_exact U Sn oc _ parens_valid _ _ nest_scan). 
  exists (hd (mk_at Eof "" None None default_loc) (closing 0 (parens n ++ [s_nl]))).
  split; [reflexivity|].
  { unfold nest_tokens, closing. cbn [repeat app hd].
    eapply d_program_more; [|apply d_program_end; cbn; now left].
      apply d_statement, d_expression_statement.
      - destruct content_inner as (_ & _ & p & r & Ep & _). unfold inner. destruct n; cbn.
        + intuition discriminate.
        + intuition discriminate.
      - eapply d_expression_line; [apply lift_expression|].
        + apply (nest_derives false n None nil). now right; left.
        + now right; left.
        + eexists. split; reflexivity. }
Qed.

Theorem nest_deep tr oc m : m <= n ->
  k_expr (level nest_tokens tr oc m) (mkP 0 0) = PFuel.
Proof.
  intros L. apply deep. intros k K. cbn [Nat.add].
  assert (X : forall j i prev b r, i < j -> exists t,
    nth_error (elems_tokens prev (place b (repeat (paren LeftParen "(") j ++ r))) i = Some t /\
    In (t_type t) [LeftParen; LeftParenAbutting]).
  { clear. induction j as [|j IH]; intros i prev b r Li; [lia|].
    destruct i as [|i]; cbn.
    - eexists. split; [reflexivity|]. cbn. destruct (abuts prev); auto.
    - apply IH. lia. }
  destruct (X n k None nil ([paren Identifier "x"] ++ repeat (paren RightParen ")") n) ltac:(lia)) as (t & E & I).
  exists t. split; auto. unfold nest_tokens.
  rewrite nth_error_app1; [exact E|]. apply nth_error_Some. fold (inner n) in E. rewrite E. discriminate.
Qed.
End Final.
