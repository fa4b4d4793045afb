(** Every derivation is found: the parser accepts what the grammar derives and
    returns its tree.  With ParseSound, the grammar is unambiguous. *)
From Verif Require Import Base F64 Token Ast Scanner Parser SpecGrammar ParseRun ParseSound
  ParseTop ParseFirst.
From Coq Require Import Lia.

Section Complete.
Variable toks : list token.
Variable trailing oc : bool.
Hypothesis OK : tokens_ok toks.
Notation rest := (rest toks).
Notation okay := (okay toks).

(** [m] reads up to [r] and returns [a]. *)
Definition yields (b : bool) {A} (m : P A) (s : pstate) (a : A) (r : list token) : Prop :=
  exists s', m s = POk a s' /\ ext toks b s s' /\ rest s' = r.
Lemma y_ret : forall b A (a : A) s, okay b s -> yields b (pret a) s a (rest s).
Proof. intros b A a s O. exists s. split; auto using ext_refl. Qed.
Lemma y_bind : forall b A B (m : P A) (f : A -> P B) s a i1 c r,
  yields b m s a i1 ->
  (forall s1, ext toks b s s1 -> okay b s1 -> rest s1 = i1 -> yields b (f a) s1 c r) ->
  yields b (pbind m f) s c r.
Proof.
  intros b A B m f s a i1 c r (s1 & E1 & X1 & R1) H.
  destruct (H s1 X1 (ext_okay _ _ _ _ X1) R1) as (s2 & E2 & X2 & R2).
  exists s2. unfold pbind. rewrite E1. split; auto. split; auto. eapply ext_trans; eauto.
Qed.
Lemma y_get_bind : forall b A B (g : pstate -> A) (f : A -> P B) s c r,
  yields b (f (g s)) s c r -> yields b (pbind (gets g) f) s c r.
Proof. intros. exact H. Qed.
Lemma y_ret_bind : forall b A B (a : A) (f : A -> P B) s c r,
  yields b (f a) s c r -> yields b (pbind (pret a) f) s c r.
Proof. intros. exact H. Qed.
Lemma y_bind_assoc : forall b A B C (m : P A) (f : A -> P B) (g : B -> P C) s c r,
  yields b (pbind m (fun a => pbind (f a) g)) s c r -> yields b (pbind (pbind m f) g) s c r.
Proof.
  intros b A B C m f g s c r (s' & E & X). exists s'. split; auto. unfold pbind in *.
  destruct (m s); auto; discriminate.
Qed.
Lemma y_ret_to : forall b A (a a' : A) s r, okay b s -> rest s = r -> a = a' -> yields b (pret a) s a' r.
Proof. intros b A a a' s r O <- <-. now apply y_ret. Qed.

(** ** Primitives *)
Lemma y_advance : forall b s t i, okay b s -> rest s = t :: i -> t_type t <> Eof ->
  yields b (advance toks) s tt i.
Proof.
  intros b s t i O E N. destruct (advance_took toks OK s t i (proj1 O) E N) as (V & T & L).
  exists (advance_st toks s). split; auto. split; [eapply ext_took; eauto|].
  destruct T as [T _]. rewrite E in T. now injection T.
Qed.
Lemma y_matches : forall b ks s t i, okay b s -> rest s = t :: i -> In (t_type t) ks -> t_type t <> Eof ->
  yields b (matches toks ks) s (Some (t_type t, tloc t)) i.
Proof.
  intros b ks s t i O E I N. unfold matches. apply y_get_bind. rewrite rest_nth, E. cbn [hd_error].
  apply tt_mem_iff in I. rewrite I. eapply y_bind; [eapply y_advance; eauto|].
  intros s1 X O1 R. now apply y_ret_to.
Qed.
Lemma y_matches_none : forall b ks s, okay b s -> ~ starts ks (rest s) ->
  yields b (matches toks ks) s None (rest s).
Proof.
  intros b ks s O N. unfold matches. apply y_get_bind. rewrite rest_nth.
  destruct (valid_rest toks s (proj1 O)) as (t & i & E). rewrite E in N |- *. cbn [hd_error].
  destruct (tt_mem (t_type t) ks) eqn:M; [apply tt_mem_iff in M; contradiction|].
  rewrite <- E. now apply y_ret.
Qed.
Lemma y_match_token : forall b k s t i, okay b s -> rest s = t :: i -> t_type t = k -> k <> Eof ->
  yields b (match_token toks k) s true i.
Proof.
  intros b k s t i O E K N. unfold match_token, check. apply y_get_bind.
  assert (C : check_st toks k s = true).
  { apply (check_iff toks); auto. apply O. rewrite E. now apply starts_one. }
  rewrite C. eapply y_bind; [eapply y_advance; eauto; congruence|].
  intros s1 X O1 R. now apply y_ret_to.
Qed.
Lemma y_match_none : forall b k s, okay b s -> ~ starts [k] (rest s) -> k <> Eof ->
  yields b (match_token toks k) s false (rest s).
Proof.
  intros b k s O N NE. unfold match_token, check. apply y_get_bind.
  assert (C : check_st toks k s = false).
  { destruct (check_st toks k s) eqn:C; auto. apply (check_iff toks) in C; auto; [contradiction|apply O]. }
  rewrite C. now apply y_ret.
Qed.
Lemma y_match_then : forall b k s i, okay b s -> token_then k (rest s) i -> k <> Eof ->
  yields b (match_token toks k) s true i.
Proof. intros b k s i O (t & E & K) N. eapply y_match_token; eauto. Qed.
Lemma y_consume_any : forall b ks msg s t i, okay b s -> rest s = t :: i -> In (t_type t) ks ->
  t_type t <> Eof -> yields b (consume_any_of toks oc ks msg) s tt i.
Proof.
  intros b ks msg s t i O E I N. unfold consume_any_of. eapply y_bind; [eapply y_matches; eauto|].
  intros s1 X O1 R. now apply y_ret_to.
Qed.
Lemma y_consume : forall b k msg s i, okay b s -> token_then k (rest s) i -> k <> Eof ->
  yields b (consume toks oc k msg) s tt i.
Proof.
  intros b k msg s i O (t & E & K) N. eapply y_consume_any; eauto; [cbn; auto|congruence].
Qed.
Lemma y_paren : forall b msg s i, okay b s -> paren_then (rest s) i ->
  yields b (consume_any_of toks oc [LeftParen; LeftParenAbutting] msg) s tt i.
Proof.
  intros b msg s i O [(t & E & K)|(t & E & K)]; eapply y_consume_any; eauto; rewrite K; cbn; auto; discriminate.
Qed.
Lemma y_name : forall b msg s t i, okay b s -> name_then t (rest s) i ->
  yields b (consume_identifier toks oc msg) s (t_lexeme t, tloc t) i.
Proof.
  intros b msg s t i O (E & K). unfold consume_identifier. apply y_get_bind. rewrite rest_nth, E.
  cbn [hd_error]. rewrite K. cbn [tt_eqb]. change (tt_eqb Identifier Identifier) with true.
  eapply y_bind; [eapply y_advance; eauto; congruence|]. intros s1 X O1 R. now apply y_ret_to.
Qed.
Lemma y_begin : forall b k msg s i, okay b s -> opens k (rest s) i ->
  yields b (consume_begin_block toks oc msg) s k i.
Proof.
  intros b k msg s i O Op. unfold consume_begin_block. inversion Op as [t u j K1 K2 E1 E2 E3|t j K1 E1 E2 E3]; subst.
  - eapply y_bind; [eapply y_matches; eauto; rewrite K1; cbn; auto; discriminate|].
    intros s1 X O1 R. rewrite K1. eapply y_bind; [eapply y_consume; auto; [rewrite R; exists u; eauto|discriminate]|].
    intros s2 X2 O2 R2. now apply y_ret_to.
  - eapply y_bind; [eapply y_matches; eauto; rewrite K1; cbn; auto; discriminate|].
    intros s1 X O1 R. rewrite K1. now apply y_ret_to.
Qed.
Lemma y_end : forall b k msg s i, okay b s -> token_then k (rest s) i -> k <> Eof ->
  yields b (consume_end_block toks oc k msg) s tt i.
Proof.
  intros b k msg s i O (t & E & K) N. unfold consume_end_block.
  eapply y_bind; [eapply y_matches; eauto; rewrite K; cbn; auto|].
  intros s1 X O1 R. now apply y_ret_to.
Qed.
Lemma y_check : forall b A k (f : bool -> P A) s c r, okay b s -> k <> Eof ->
  starts [k] (rest s) -> yields b (f true) s c r -> yields b (pbind (check toks k) f) s c r.
Proof.
  intros b A k f s c r O N S H. unfold check. apply y_get_bind.
  assert (C : check_st toks k s = true) by (apply (check_iff toks); auto; apply O). now rewrite C.
Qed.
Lemma check_no : forall b k s, okay b s -> k <> Eof -> ~ starts [k] (rest s) -> check_st toks k s = false.
Proof.
  intros b k s O N S. destruct (check_st toks k s) eqn:C; auto.
  apply (check_iff toks) in C; auto; [contradiction|apply O].
Qed.
Lemma check_yes : forall b k s, okay b s -> k <> Eof -> starts [k] (rest s) -> check_st toks k s = true.
Proof. intros b k s O N S. apply (check_iff toks); auto. apply O. Qed.
Lemma y_check_no : forall b A k (f : bool -> P A) s c r, okay b s -> k <> Eof ->
  ~ starts [k] (rest s) -> yields b (f false) s c r -> yields b (pbind (check toks k) f) s c r.
Proof.
  intros b A k f s c r O N S H. unfold check. apply y_get_bind. now rewrite (check_no b).
Qed.
Lemma at_end_no : forall s ks, valid toks s -> starts ks (rest s) -> ~ In Eof ks -> is_at_end toks s = false.
Proof.
  intros s ks V S N. destruct (is_at_end toks s) eqn:E; auto. exfalso. apply at_end_iff in E; auto.
  destruct (rest s) as [|t i]; cbn in *; auto. destruct E as [E|[]]. congruence.
Qed.

(** ** Operators by level *)
Definition bin (er : P expr) (dr : P stmt) (lv : nat) : P expr :=
  match lv with
  | 0 => or_ toks oc er dr
  | 1 => and_ toks oc er dr
  | 2 => equality toks oc er dr
  | 3 => comparison toks oc er dr
  | 4 => addition toks oc er dr
  | 5 => multiplication toks oc er dr
  | _ => unary toks oc er dr
  end.
Definition bin_loop (er : P expr) (dr : P stmt) (lv : nat) : nat -> expr -> P expr :=
  match lv with
  | 0 => or_loop toks oc er dr
  | 1 => and_loop toks oc er dr
  | 2 => equality_loop toks oc er dr
  | 3 => comparison_loop toks oc er dr
  | 4 => addition_loop toks oc er dr
  | _ => multiplication_loop toks oc er dr
  end.
Lemma bin_eq : forall er dr lv, lv < top_level ->
  bin er dr lv = (plet e <- bin er dr (S lv) ;; bin_loop er dr lv (loop_fuel toks) e).
Proof.
  intros er dr lv L. unfold top_level in L.
  destruct lv as [|[|[|[|[|[|lv]]]]]]; try reflexivity. lia.
Qed.
Lemma bin_shape : forall er dr lv, lv < top_level ->
  exists ks, tail_shape toks lv ks (bin er dr (S lv)) (bin_loop er dr lv).
Proof.
  intros er dr lv L. unfold top_level in L.
  destruct lv as [|[|[|[|[|[|lv]]]]]]; [eexists; apply or_shape|eexists; apply and_shape
    |eexists; apply eq_shape|eexists; apply cmp_shape|eexists; apply add_shape
    |eexists; apply mult_shape|lia].
Qed.

(** ** The parser function of each nonterminal *)
Notation er n := (k_expr (level toks trailing oc n)).
Notation sr n := (k_stmt (level toks trailing oc n)).
Notation dr n := (k_decl (level toks trailing oc n)).

Definition target_fn (er : P expr) (dr : P stmt) : P expr :=
  plet indented <- match_token toks Indent ;;
  if (indented : bool) then
    plet e <- or_ toks oc er dr ;;
    pdo match_token toks Terminator ;;
    pdo consume toks oc Outdent "Expect outdent after indented expression." ;;
    pret e
  else or_ toks oc er dr.
Definition branch_fn (sr dr : P stmt) (msg : string) : P stmt :=
  plet block <- gets (fun s => check_st toks Terminator s || check_st toks LeftBrace s) ;;
  if (block : bool) then
    plet end_block <- consume_begin_block toks oc msg ;;
    plet b <- finish_block toks oc dr end_block ;; pret (SBlock b)
  else sr.
Definition for_init_fn (er : P expr) (dr : P stmt) : P (option stmt) :=
  plet semi <- match_token toks Semicolon ;;
  if (semi : bool) then pret None
  else
    plet var <- match_token toks Var ;;
    if (var : bool) then plet d <- finish_var_declaration toks oc er dr true ;; pret (Some d)
    else plet d <- expression_statement toks trailing oc er dr ;; pret (Some d).
Definition condition_fn (er : P expr) (dr : P stmt) : P expr :=
  plet no_cond <- check toks Semicolon ;;
  if (no_cond : bool) then pret (EBool true) else expression toks oc er dr.
Definition increment_fn (er : P expr) (dr : P stmt) : P (option expr) :=
  plet no_inc <- check toks RightParen ;;
  if (no_inc : bool) then pret None else plet e <- expression toks oc er dr ;; pret (Some e).

Definition complete (b : bool) (N : sym) (i : list token) (v : val) (r : list token) : Prop :=
  match N, v with
  | Expression, VE e => forall n s, okay b s -> rest s = i -> length i < n ->
      yields b (er n) s e r
  | Target, VE e => forall n s, okay b s -> rest s = i -> length i <= n ->
      yields b (target_fn (er n) (dr n)) s e r
  | Binary lv, VE e => lv <= top_level -> forall n s, okay b s -> rest s = i -> length i <= n ->
      yields b (bin (er n) (dr n) lv) s e r
  | BinaryTail lv e0, VE e => lv < top_level -> forall n fuel s, okay b s -> rest s = i ->
      length i <= n -> length i < fuel ->
      yields b (bin_loop (er n) (dr n) lv fuel e0) s e r
  | Unary, VE e => forall n fuel s, okay b s -> rest s = i -> length i <= n -> length i < fuel ->
      yields b (unary_fuel toks oc (er n) (dr n) fuel) s e r
  | Call, VE e => forall n s, okay b s -> rest s = i -> length i <= n ->
      yields b (call toks oc (er n) (dr n)) s e r
  | CallTail e0, VE e => forall n fuel s, okay b s -> rest s = i ->
      (length i < n \/ starts [This] i) -> length i < fuel ->
      yields b (call_loop toks oc (er n) fuel e0) s e r
  | Primary, VE e => forall n s, okay b s -> rest s = i -> length i <= n ->
      yields b (primary toks oc (er n) (dr n)) s e r
  | Arguments, VEs es => forall n fuel acc s, okay b s -> rest s = i -> length i < n ->
      length i < fuel -> length acc + length es <= max_parameters ->
      yields b (args_loop toks oc (er n) fuel acc) s (acc ++ es) r
  | Elements, VEs es => forall n fuel acc s, okay b s -> rest s = i -> length i < n ->
      length i < fuel -> yields b (array_loop toks (er n) fuel acc) s (acc ++ es) r
  | Entries, VM m => forall n fuel acc s, okay b s -> rest s = i -> length i <= n ->
      length i < fuel -> NoDup (map fst (acc ++ m)) ->
      yields b (literal_map_loop toks oc (er n) fuel acc) s (acc ++ m) r
  | Parameters, VPs ps => forall fuel acc s, okay b s -> rest s = i -> length i < fuel ->
      length acc + length ps <= max_parameters ->
      yields b (param_loop toks oc fuel acc) s (acc ++ ps) r
  | Function l, VF f => forall n s, okay b s -> rest s = i -> length i <= n ->
      yields b (function_definition toks oc (dr n) l) s f r
  | Block, VSs l => forall n msg s, okay b s -> rest s = i -> length i <= n ->
      yields b (plet k <- consume_begin_block toks oc msg ;; finish_block toks oc (dr n) k) s l r
  | Statements k, VSs l => k = Outdent \/ k = RightBrace ->
      forall n fuel acc msg s, okay b s -> rest s = i -> length i < n -> length i < fuel ->
      yields b (plet l <- block_loop toks (dr n) fuel k acc ;;
                pdo consume_end_block toks oc k msg ;; pret l) s (acc ++ l) r
  | Methods k, VMs l => k = Outdent \/ k = RightBrace ->
      forall n fuel acc msg s, okay b s -> rest s = i -> length i <= n -> length i < fuel ->
      yields b (plet l <- method_loop toks oc (dr n) fuel k acc ;;
                pdo consume_end_block toks oc k msg ;; pret l) s (acc ++ l) r
  | VarDeclaration fi, VS st => forall n s, okay b s -> rest s = i -> length i <= n ->
      yields b (finish_var_declaration toks oc (er n) (dr n) fi) s st r
  | Branch, VS st => forall n msg s, okay b s -> rest s = i -> length i < n ->
      yields b (branch_fn (sr n) (dr n) msg) s st r
  | ForInit, VO o => forall n s, okay b s -> rest s = i -> length i <= n ->
      yields b (for_init_fn (er n) (dr n)) s o r
  | Condition, VE e => forall n s, okay b s -> rest s = i -> length i <= n ->
      yields b (condition_fn (er n) (dr n)) s e r
  | Increment, VOE o => forall n s, okay b s -> rest s = i -> length i <= n ->
      yields b (increment_fn (er n) (dr n)) s o r
  | ExpressionStatement, VS st => forall n s, okay b s -> rest s = i -> length i <= n ->
      yields b (expression_statement toks trailing oc (er n) (dr n)) s st r
  | Statement, VS st => forall n s, okay b s -> rest s = i -> length i < n ->
      yields b (sr n) s st r
  | Declaration, VS st => forall n s, okay b s -> rest s = i -> length i < n ->
      yields b (dr n) s st r
  | Program, VSs l => forall fuel acc s, cur s < length toks -> inside s = b -> rest s = i ->
      length i < fuel ->
      exists s', parse_loop toks trailing oc fuel acc nil s = Done (acc ++ l, nil, s') /\
        rest s' = r /\ starts [Eof] r
  | _, _ => True
  end.

Lemma fuel_ok : forall s i, rest s = i -> length i < loop_fuel toks.
Proof. intros s i <-. rewrite rest_length. unfold loop_fuel. lia. Qed.
Lemma expression_eq : forall er dr s, expression toks oc er dr s =
  (plet e <- target_fn er dr ;; plet o <- matches toks [Equal] ;;
   match o with None => pret e | Some (_, l) => plet rhs <- er ;; assign_target e rhs l end) s.
Proof.
  intros er dr s. unfold expression, assignment, target_fn, pbind.
  destruct (match_token toks Indent s); auto.
Qed.
Lemma assign_eq : forall e e2 l e', assigned e e2 l = Some e' -> assign_target e e2 l = pret e'.
Proof.
  intros e e2 l e' H. destruct e; cbn in *; try discriminate; try (now injection H as <-).
  destruct (String.eqb _ "this"); [discriminate|]. now injection H as <-.
Qed.
Lemma y_ext : forall b A (m m' : P A) s a r, m s = m' s -> yields b m' s a r -> yields b m s a r.
Proof. intros b A m m' s a r E (s' & X). exists s'. now rewrite E. Qed.

(** An expression starting with [fun] is not a named function. *)
Definition fun_sym (N : sym) : bool :=
  match N with
  | Expression | Target | Binary _ | Unary | Call | Primary | ExpressionStatement | Statement => true
  | _ => false
  end.
Lemma fun_unnamed : forall b N i v r, derives trailing b N i v r -> fun_sym N = true ->
  forall t u j, i = t :: u :: j -> t_type t = Fun -> t_type u <> Identifier.
Proof.
  assert (TT : forall k i r t (j : list token), token_then k i r -> i = t :: j -> t_type t = k).
  { intros k i r t j (x & -> & K) E. now injection E as <- <-. }
  induction 1; cbn [fun_sym]; intros FS w u j E K; try discriminate; eauto 2;
    try (match goal with H : token_then ?k ?i _ |- _ => assert (Z := TT _ _ _ _ _ H E); congruence end);
    try (injection E as <- <-; congruence);
    try (injection E as <- E; rewrite K in *; discriminate);
    try (injection E as <- ->; congruence).
  - injection E as <- ->. rewrite K in H. destruct H as [H|[H|[]]]; discriminate.
  - destruct H as (t & c & q & -> & I & KC). injection E as <- <- <-. rewrite K in I.
    destruct I as [I|[I|[]]]; discriminate.
  - injection E as <- ->. intros KU.
    assert (S := first _ _ _ _ _ _ H0 ltac:(discriminate)). cbn [first_of starts] in S. rewrite KU in S.
    destruct S as [S|[S|[]]]; discriminate.
  - destruct H as [H|H]; assert (Z := TT _ _ _ _ _ H E); congruence.
Qed.
(** The body of a loop is a branch with the loop count raised. *)
Lemma y_loop_body : forall b n s st r, okay b s ->
  yields true (branch_fn (sr n) (dr n) "Expect '{' or indent before loop body.")
    (mkP (cur s) (S (loops s))) st r ->
  yields b (loop_body_statement toks oc (sr n) (dr n)) s st r.
Proof.
  intros b n s st r O (s2 & E & (V2 & I2 & C2 & L2) & R2).
  cbn [loops cur] in *. exists (mkP (cur s2) (loops s)). split.
  - unfold loop_body_statement, branch_fn, pbind, incr_loops, gets, pret in *.
    set (s1 := mkP (cur s) (S (loops s))) in *.
    destruct (check_st toks Terminator s1 || check_st toks LeftBrace s1).
    + destruct (consume_begin_block toks oc "Expect '{' or indent before loop body." s1) as [k s3|?|?|]; try discriminate.
      destruct (finish_block toks oc (dr n) k s3) as [l s4|?|?|]; try discriminate.
      injection E as -> ->. unfold decr_loops_st. now rewrite L2.
    + rewrite E. unfold decr_loops_st. now rewrite L2.
  - split; [|exact R2]. split; [exact V2|]. split; [exact (proj2 O)|]. split; [exact C2|reflexivity].
Qed.
Lemma map_insert_new : forall V (m : list (string * V)) k v, ~ In k (map fst m) ->
  map_insert m k v = (m ++ [(k, v)], None).
Proof.
  intros V m k v N. destruct (map_insert m k v) as [m' old] eqn:E. apply map_insert_spec in E.
  destruct old; [contradiction|]. now destruct E as [_ ->].
Qed.

Lemma if_assoc2 : forall A B C (m : P A) (g : A -> P B) (f : B -> P C) s,
  (plet x <- m ;; plet y <- g x ;; f y) s = (plet y <- (plet x <- m ;; g x) ;; f y) s.
Proof. intros. unfold pbind. destruct (m s); reflexivity. Qed.

Ltac len := repeat match goal with
    | H : token_then _ _ _ |- _ => apply then_length in H
    | H : name_then _ _ _ |- _ => apply name_length in H
    | H : paren_then _ _ |- _ => apply paren_length in H
    | H : opens _ _ _ |- _ => apply opens_length in H
    | H : separator _ _ |- _ => apply separator_length in H
    | H : optional _ _ _ |- _ => apply optional_length in H
    | H : derives _ _ _ _ _ _ |- _ => apply derives_length in H
    end; subst; cbn [length] in *;
    repeat match goal with H : rest _ = _ |- _ => apply (f_equal (@List.length token)) in H; cbn [length] in H end;
    lia.
Ltac nf := first [eapply not_first; [eassumption|discriminate|reflexivity]].
Ltac bindy L := eapply y_bind; [L|].
Ltac eqr := repeat match goal with R : rest ?s = _ |- context [rest ?s] => rewrite R end.

Lemma complete_all : forall b N i v r, derives trailing b N i v r -> complete b N i v r.
Proof.
  induction 1; cbn [complete] in *.
  - (* expression *) intros n s O R L. destruct n as [|n]; [lia|]. cbn [level k_expr].
    eapply y_ext; [apply expression_eq|]. bindy ltac:(apply IHderives; eauto; lia).
    intros s1 X1 O1 R1. bindy ltac:(apply y_matches_none; auto; rewrite R1; auto).
    intros s2 X2 O2 R2. apply y_ret_to; auto. congruence.
  - (* assignment *) intros n s O R L. destruct n as [|n]; [lia|]. cbn [level k_expr].
    eapply y_ext; [apply expression_eq|]. bindy ltac:(apply IHderives1; eauto; lia).
    intros s1 X1 O1 R1. bindy ltac:(eapply y_matches; eauto; rewrite H0; cbn; auto; discriminate).
    intros s2 X2 O2 R2. rewrite H0. bindy ltac:(apply IHderives2; eauto; len).
    intros s3 X3 O3 R3. rewrite (assign_eq _ _ _ _ H2). now apply y_ret_to.
  - (* target *) intros n s O R L. unfold target_fn.
    bindy ltac:(apply y_match_none; auto; [rewrite R; nf|discriminate]).
    intros s1 X1 O1 R1. apply (IHderives ltac:(unfold top_level; lia)); auto. congruence.
  - (* indented target *) intros n s O R L. unfold target_fn.
    bindy ltac:(eapply y_match_then; auto; [rewrite R; eauto|discriminate]).
    intros s1 X1 O1 R1. bindy ltac:(apply (IHderives ltac:(unfold top_level; lia) n); auto; len).
    intros s2 X2 O2 R2.
    assert (Y : exists m, yields b (match_token toks Terminator) s2 m r2).
    { destruct H1 as [t j K|j K].
      - exists true. eapply y_match_token; eauto. discriminate.
      - exists false. rewrite <- R2. apply y_match_none; auto; [now rewrite R2|discriminate]. }
    destruct Y as [m Y]. bindy ltac:(exact Y). intros s3 X3 O3 R3.
    bindy ltac:(eapply y_consume; auto; [rewrite R3; eauto|discriminate]).
    intros s4 X4 O4 R4. now apply y_ret_to.
  - (* binary *) intros _ n0 s O R L. rewrite bin_eq by auto.
    bindy ltac:(apply IHderives1; auto; lia). intros s1 X1 O1 R1.
    apply IHderives2; auto; [len|]. eapply fuel_ok; eauto.
  - (* unary level *) intros _ n s O R L. change (bin (er n) (dr n) top_level) with (unary toks oc (er n) (dr n)).
    apply IHderives; auto. eapply fuel_ok; eauto.
  - (* tail end *) intros LV n0 fuel s O R L F. destruct fuel as [|f]; [lia|].
    destruct (bin_shape (er n0) (dr n0) n LV) as [ks [SR SO]].
    eapply y_ext; [apply SR|]. unfold tail_body. bindy ltac:(apply y_matches_none; auto).
    + intros S. rewrite R in S. destruct i as [|t i]; cbn in *; auto. apply SO in S. contradiction.
    + intros s1 X1 O1 R1. apply y_ret_to; auto. congruence.
  - (* tail more *) intros LV n0 fuel s O R L F. destruct fuel as [|f0]; [lia|].
    destruct (bin_shape (er n0) (dr n0) n LV) as [ks [SR SO]].
    eapply y_ext; [apply SR|]. unfold tail_body. bindy ltac:(eapply y_matches; eauto).
    + apply SO. congruence.
    + intros E. rewrite E in H. destruct n as [|[|[|[|[|[|n]]]]]]; discriminate.
    + intros s1 X1 O1 R1. bindy ltac:(apply IHderives1; [exact LV|auto|auto|len]).
      intros s2 X2 O2 R2. rewrite H. apply IHderives2; auto; len.
  - (* unary *) intros n fuel s O R L F. destruct fuel as [|f0]; [lia|]. cbn [unary_fuel].
    assert (T : t_type t = Bang /\ op = UNot \/ t_type t = Minus /\ op = UMinus).
    { destruct (t_type t); try discriminate; injection H as <-; auto. }
    bindy ltac:(eapply y_matches; eauto; destruct T as [[-> _]|[-> _]]; cbn; auto; discriminate).
    intros s1 X1 O1 R1. bindy ltac:(apply IHderives; auto; len). intros s2 X2 O2 R2.
    destruct T as [[-> ->]|[-> ->]]; now apply y_ret_to.
  - (* unary call *) intros n fuel s O R L F. destruct fuel as [|f0]; [lia|]. cbn [unary_fuel].
    bindy ltac:(apply y_matches_none; auto; rewrite R; nf). intros s1 X1 O1 R1.
    apply IHderives; auto. congruence.
  - (* call *) intros n s O R L. unfold call. bindy ltac:(apply IHderives1; auto).
    intros s1 X1 O1 R1. apply IHderives2; auto; [|eapply fuel_ok; eauto].
    destruct (proj1 (derives_moves _ _ _ _ _ _ H) I) as [M|[-> M]]; [left; lia|right; auto].
  - (* call end *) intros n fuel s O R L F. destruct fuel as [|f0]; [lia|]. cbn [call_loop].
    rewrite <- R in H.
    bindy ltac:(apply y_matches_none; auto; intros S; apply H; eapply starts_incl; [exact S|inclb]).
    intros s1 X1 O1 R1. apply y_get_bind.
    assert (C : check_any_of_st toks CALL_PRIMARY_TOKENS s1 = false).
    { destruct (check_any_of_st toks CALL_PRIMARY_TOKENS s1) eqn:C; auto. exfalso.
      apply (check_any_iff toks) in C; [|apply O1|intros S; revert S; cbn; intuition discriminate].
      rewrite R1 in C. apply H. eapply starts_incl; [exact C|inclb]. }
    rewrite C. apply y_ret_to; auto. congruence.
  - (* get *) intros n0 fuel s O R L F. destruct fuel as [|f0]; [lia|]. cbn [call_loop].
    bindy ltac:(eapply y_matches; eauto; rewrite H; cbn; auto; discriminate). intros s1 X1 O1 R1.
    rewrite H. bindy ltac:(eapply y_name; auto; rewrite R1; eauto). intros s2 X2 O2 R2. cbn beta iota.
    apply IHderives; auto; [|len]. left. destruct L as [L|L]; [len|].
    exfalso. cbn in L. rewrite H in L. intuition discriminate.
  - (* call without arguments *) intros n0 fuel s O R L F. destruct fuel as [|f0]; [lia|]. cbn [call_loop].
    bindy ltac:(eapply y_matches; eauto; rewrite H; cbn; auto; discriminate). intros s1 X1 O1 R1.
    rewrite H. unfold finish_call. apply y_bind_assoc.
    eapply y_check; auto; [discriminate|rewrite R1; eapply starts_then; eauto; cbn; auto|].
    apply y_bind_assoc, y_ret_bind, y_bind_assoc. bindy ltac:(eapply y_consume; auto; [rewrite R1; eauto|discriminate]).
    intros s2 X2 O2 R2. apply y_ret_bind. apply IHderives; auto; [|len].
    left. destruct L as [L|L]; [len|]. exfalso. cbn in L. rewrite H in L. intuition discriminate.
  - (* call with arguments *) intros n0 fuel s O R L F. destruct fuel as [|f0]; [lia|]. cbn [call_loop].
    assert (L' : length (t :: i) < n0).
    { destruct L as [L|L]; auto. exfalso. cbn in L. rewrite H in L. intuition discriminate. }
    bindy ltac:(eapply y_matches; eauto; rewrite H; cbn; auto; discriminate). intros s1 X1 O1 R1.
    rewrite H. unfold finish_call. apply y_bind_assoc.
    eapply y_check_no; auto; [discriminate|rewrite R1; nf|].
    apply y_bind_assoc. bindy ltac:(eapply IHderives1; [auto|eauto|len|eapply fuel_ok; eauto|cbn; auto]).
    intros s2 X2 O2 R2. apply y_bind_assoc. bindy ltac:(eapply y_consume; auto; [rewrite R2; eauto|discriminate]).
    intros s3 X3 O3 R3. apply y_ret_bind. apply IHderives2; auto; [left|]; len.
  - (* index *) intros n0 fuel s O R L F. destruct fuel as [|f0]; [lia|]. cbn [call_loop].
    assert (L' : length (t :: i) < n0).
    { destruct L as [L|L]; auto. exfalso. cbn in L. rewrite H in L. intuition discriminate. }
    bindy ltac:(eapply y_matches; eauto; rewrite H; cbn; auto; discriminate). intros s1 X1 O1 R1.
    rewrite H. unfold finish_get_index. apply y_bind_assoc.
    bindy ltac:(eapply IHderives1; [auto|eauto|len]).
    intros s2 X2 O2 R2. apply y_bind_assoc. bindy ltac:(eapply y_consume; auto; [rewrite R2; eauto|discriminate]).
    intros s3 X3 O3 R3. apply y_ret_bind. apply IHderives2; auto; [left|]; len.
  - (* juxtaposed *) intros n0 fuel s O R L F. destruct fuel as [|f0]; [lia|]. cbn [call_loop].
    assert (NT : t_type t <> This).
    { intros E. rewrite E in H. revert H. cbn. intuition discriminate. }
    assert (L' : length (t :: i) < n0).
    { destruct L as [L|L]; auto. exfalso. cbn in L. intuition. }
    assert (M : length r1 < length (t :: i)).
    { destruct (proj1 (derives_moves _ _ _ _ _ _ H0) I) as [M|[_ M]]; auto. exfalso. cbn in M. intuition. }
    bindy ltac:(apply y_matches_none; auto).
    { rewrite R. cbn [starts]. intros S. cbn in S. destruct S as [S|[S|[S|[]]]]; rewrite <- S in H;
        revert H; cbn; intuition discriminate. }
    intros s1 X1 O1 R1. rewrite R in R1. apply y_get_bind.
    assert (C : check_any_of_st toks CALL_PRIMARY_TOKENS s1 = true).
    { apply (check_any_iff toks); [apply O1|intros S; revert S; cbn; intuition discriminate|].
      rewrite R1. exact H. }
    rewrite C.
    eapply y_bind with (a := tloc t) (i1 := t :: i).
    { exists s1. split; [|split; auto; now apply ext_refl].
      unfold peek_source_loc, pbind, gets. now rewrite rest_nth, R1. }
    intros s2 X2 O2 R2. unfold finish_call_without_parens. apply y_bind_assoc.
    bindy ltac:(eapply IHderives1; [auto|eauto|len|eapply fuel_ok; eauto|cbn; auto]).
    intros s3 X3 O3 R3. apply y_ret_bind. apply IHderives2; auto; [left|]; len.
  - (* one argument *) intros n fuel acc s O R L F A. destruct fuel as [|f0]; [lia|]. cbn [args_loop].
    destruct (Nat.leb_spec 255 (length acc)) as [Z|Z]; [cbn in A; unfold max_parameters in A; lia|].
    bindy ltac:(apply IHderives; auto). intros s1 X1 O1 R1.
    bindy ltac:(apply y_match_none; auto; [now rewrite R1|discriminate]). intros s2 X2 O2 R2.
    apply y_ret_to; auto. congruence.
  - (* more arguments *) intros n fuel acc s O R L F A. destruct fuel as [|f0]; [lia|]. cbn [args_loop].
    destruct (Nat.leb_spec 255 (length acc)) as [Z|Z]; [cbn in A; unfold max_parameters in A; lia|].
    bindy ltac:(apply IHderives1; auto). intros s1 X1 O1 R1.
    bindy ltac:(eapply y_match_then; auto; [rewrite R1; eauto|discriminate]). intros s2 X2 O2 R2.
    cbn beta iota. replace (acc ++ e :: es) with ((acc ++ [e]) ++ es) by now rewrite <- app_assoc.
    apply IHderives2; auto; try len. rewrite app_length. cbn in *. lia.
  - (* false *) intros n s O R L. unfold primary. apply y_get_bind. rewrite rest_nth, R. cbn [hd_error].
    rewrite H. bindy ltac:(eapply y_advance; eauto; congruence). intros s1 X1 O1 R1. now apply y_ret_to.
  - (* true *) intros n s O R L. unfold primary. apply y_get_bind. rewrite rest_nth, R. cbn [hd_error].
    rewrite H. bindy ltac:(eapply y_advance; eauto; congruence). intros s1 X1 O1 R1. now apply y_ret_to.
  - (* nil *) intros n s O R L. unfold primary. apply y_get_bind. rewrite rest_nth, R. cbn [hd_error].
    rewrite H. bindy ltac:(eapply y_advance; eauto; congruence). intros s1 X1 O1 R1. now apply y_ret_to.
  - (* number *) intros n s O R L. unfold primary. apply y_get_bind. rewrite rest_nth, R. cbn [hd_error].
    rewrite H, H0. bindy ltac:(eapply y_advance; eauto; congruence). intros s1 X1 O1 R1. now apply y_ret_to.
  - (* string *) intros n s O R L. unfold primary. apply y_get_bind. rewrite rest_nth, R. cbn [hd_error].
    rewrite H, H0. apply y_get_bind.
    assert (C : check_next_st toks Colon s = false).
    { destruct (check_next_st toks Colon s) eqn:C; auto. exfalso. apply H1.
      now apply (colon_iff toks OK s t i (proj1 O) R). }
    rewrite C. bindy ltac:(eapply y_advance; eauto; congruence). intros s1 X1 O1 R1. now apply y_ret_to.
  - (* variable *) intros n s O R L. unfold primary. apply y_get_bind. rewrite rest_nth, R. cbn [hd_error].
    assert (C : check_next_st toks Colon s = false).
    { destruct (check_next_st toks Colon s) eqn:C; auto. exfalso. apply H0.
      now apply (colon_iff toks OK s t i (proj1 O) R). }
    assert (Y : yields b (pdo advance toks ;; pret (EVariable (t_lexeme t) var_placeholder (tloc t))) s
        (EVariable (t_lexeme t) var_placeholder (tloc t)) i).
    { bindy ltac:(eapply y_advance; eauto; destruct H as [<-|[<-|[]]]; discriminate).
      intros s1 X1 O1 R1. now apply y_ret_to. }
    destruct H as [<-|[<-|[]]]; apply y_get_bind; rewrite C; exact Y.
  - (* bare map *) intros n s O R L. unfold primary. apply y_get_bind.
    assert (EH := H). destruct H as (t & c & q & -> & K & KC).
    rewrite rest_nth, R. cbn [hd_error].
    assert (C : check_next_st toks Colon s = true).
    { apply (colon_iff toks OK s t (c :: q) (proj1 O) R). now apply starts_one. }
    assert (Y : yields b (plet m <- literal_map toks oc (er n) ;; pret (EMap m)) s (EMap m) r).
    { unfold literal_map. bindy ltac:(apply (IHderives n (loop_fuel toks) nil); auto; eapply fuel_ok; eauto).
      intros s1 X1 O1 R1. now apply y_ret_to. }
    destruct K as [<-|[<-|[]]]; apply y_get_bind; rewrite C; exact Y.
  - (* this before a colon *) intros n s O R L. unfold primary. apply y_get_bind. rewrite rest_nth, R. cbn [hd_error].
    rewrite H. apply y_get_bind.
    assert (C : check_next_st toks Colon s = true).
    { apply (colon_iff toks OK s t (c :: i) (proj1 O) R). now apply starts_one. }
    rewrite C. unfold literal_map. eapply y_bind with (a := nil) (i1 := t :: c :: i).
    + exists s. split; [|split; auto; now apply ext_refl].
      unfold loop_fuel. cbn [literal_map_loop]. unfold pbind, gets.
      assert (Z : check_any_of_st toks [Identifier; TString] s = false).
      { destruct (check_any_of_st toks [Identifier; TString] s) eqn:Z; auto. exfalso.
        apply (check_any_iff toks) in Z; [|apply O|cbn; intuition discriminate].
        rewrite R in Z. cbn in Z. rewrite H in Z. intuition discriminate. }
      rewrite Z. reflexivity.
    + intros s1 X1 O1 R1. now apply y_ret_to.
  - (* function *) intros n s O R L. unfold primary. apply y_get_bind. rewrite rest_nth, R. cbn [hd_error].
    rewrite H. bindy ltac:(eapply y_advance; eauto; congruence). intros s1 X1 O1 R1.
    bindy ltac:(apply y_match_none; auto; [rewrite R1; nf|discriminate]). intros s2 X2 O2 R2.
    bindy ltac:(apply IHderives; [auto|congruence|len]). intros s3 X3 O3 R3. now apply y_ret_to.
  - (* grouping *) intros n s O R L. unfold primary. apply y_get_bind.
    assert (Y : exists t, i = t :: i1 /\ In (t_type t) [LeftParen; LeftParenAbutting]).
    { destruct H as [(t & E & K)|(t & E & K)]; exists t; rewrite K; cbn; auto. }
    destruct Y as (t & E & K). rewrite rest_nth, R, E. cbn [hd_error].
    assert (Y : yields b (pdo advance toks ;; plet e <- er n ;;
      pdo consume toks oc RightParen "Missing close parenthesis." ;; pret (EGrouping e)) s (EGrouping e) r).
    { bindy ltac:(eapply y_advance; [auto|rewrite R, E; eauto|destruct K as [<-|[<-|[]]]; discriminate]).
      intros s1 X1 O1 R1. bindy ltac:(apply IHderives; [auto|auto|len]). intros s2 X2 O2 R2.
      bindy ltac:(eapply y_consume; auto; [rewrite R2; eauto|discriminate]). intros s3 X3 O3 R3. now apply y_ret_to. }
    destruct K as [<-|[<-|[]]]; exact Y.
  - (* braced map *) intros n s O R L. unfold primary. apply y_get_bind.
    assert (TT := H). destruct H as (t & E & K). rewrite rest_nth, R, E. cbn [hd_error]. rewrite K.
    bindy ltac:(eapply y_advance; [auto|rewrite R, E; eauto|congruence]). intros s1 X1 O1 R1.
    unfold literal_map.
    bindy ltac:(apply (IHderives n (loop_fuel toks) nil); [auto|auto|len|eapply fuel_ok; eauto|auto]).
    intros s2 X2 O2 R2. bindy ltac:(eapply y_consume; auto; [rewrite R2; eauto|discriminate]).
    intros s3 X3 O3 R3. now apply y_ret_to.
  - (* empty array *) intros n s O R L. unfold primary. apply y_get_bind.
    assert (TT := H). destruct H as (t & E & K). rewrite rest_nth, R, E. cbn [hd_error]. rewrite K.
    bindy ltac:(eapply y_advance; [auto|rewrite R, E; eauto|congruence]). intros s1 X1 O1 R1.
    eapply y_check; auto; [discriminate|rewrite R1; eapply starts_then; eauto; cbn; auto|].
    apply y_ret_bind. bindy ltac:(eapply y_consume; auto; [rewrite R1; eauto|discriminate]).
    intros s3 X3 O3 R3. now apply y_ret_to.
  - (* array *) intros n s O R L. unfold primary. apply y_get_bind.
    assert (TT := H). destruct H as (t & E & K). rewrite rest_nth, R, E. cbn [hd_error]. rewrite K.
    bindy ltac:(eapply y_advance; [auto|rewrite R, E; eauto|congruence]). intros s1 X1 O1 R1.
    eapply y_check_no; auto; [discriminate|rewrite R1; nf|].
    bindy ltac:(apply (IHderives n (loop_fuel toks) nil); [auto|auto|len|eapply fuel_ok; eauto]).
    intros s2 X2 O2 R2. bindy ltac:(eapply y_consume; auto; [rewrite R2; eauto|discriminate]).
    intros s3 X3 O3 R3. now apply y_ret_to.
  - (* super *) intros n0 s O R L. unfold primary. apply y_get_bind. rewrite rest_nth, R. cbn [hd_error].
    rewrite H. bindy ltac:(eapply y_advance; eauto; congruence). intros s1 X1 O1 R1.
    bindy ltac:(eapply y_consume; auto; [rewrite R1; eauto|discriminate]). intros s2 X2 O2 R2.
    bindy ltac:(eapply y_name; auto; rewrite R2; eauto). intros s3 X3 O3 R3. now apply y_ret_to.
  - (* one element *) intros n fuel acc s O R L F. destruct fuel as [|f0]; [lia|]. cbn [array_loop].
    bindy ltac:(apply IHderives; auto). intros s1 X1 O1 R1.
    bindy ltac:(apply y_match_none; auto; [now rewrite R1|discriminate]). intros s2 X2 O2 R2.
    apply y_ret_to; auto. congruence.
  - (* final comma *) intros n fuel acc s O R L F. destruct fuel as [|f0]; [lia|]. cbn [array_loop].
    bindy ltac:(apply IHderives; auto). intros s1 X1 O1 R1.
    bindy ltac:(eapply y_match_then; auto; [rewrite R1; eauto|discriminate]). intros s2 X2 O2 R2.
    eapply y_check; auto; [discriminate|now rewrite R2|]. now apply y_ret_to.
  - (* more elements *) intros n fuel acc s O R L F. destruct fuel as [|f0]; [lia|]. cbn [array_loop].
    bindy ltac:(apply IHderives1; auto). intros s1 X1 O1 R1.
    bindy ltac:(eapply y_match_then; auto; [rewrite R1; eauto|discriminate]). intros s2 X2 O2 R2.
    eapply y_check_no; auto; [discriminate|rewrite R2; nf|].
    replace (acc ++ e :: es) with ((acc ++ [e]) ++ es) by now rewrite <- app_assoc.
    apply IHderives2; auto; len.
  - (* no entries *) intros n fuel acc s O R L F ND. destruct fuel as [|f0]; [lia|]. cbn [literal_map_loop].
    apply y_get_bind. rewrite <- R in H. rewrite <- (entry_iff toks OK s (proj1 O)) in H.
    destruct (check_any_of_st toks [Identifier; TString] s && check_next_st toks Colon s); [now elim H|].
    cbn [negb]. rewrite app_nil_r. now apply y_ret_to.
  - (* last entry *) intros n fuel acc s O R L F ND. destruct fuel as [|f0]; [lia|]. cbn [literal_map_loop].
    apply y_get_bind.
    assert (EH : entry_here (rest s)).
    { rewrite R. exists t, c, i. split; auto. split; auto. destruct H as [[-> _]|[-> _]]; cbn; auto. }
    apply (entry_iff toks OK s (proj1 O)) in EH. rewrite EH. cbn [negb]. apply y_get_bind.
    rewrite rest_nth, R. cbn [hd_error].
    eapply y_bind with (a := k) (i1 := t :: c :: i).
    { destruct H as [[-> ->]|[-> ->]]; now apply y_ret_to. }
    intros s0 X0 O0 R0.
    bindy ltac:(eapply y_advance; eauto; destruct H as [[-> _]|[-> _]]; discriminate).
    intros s1 X1 O1 R1. bindy ltac:(eapply y_consume; auto; [rewrite R1; exists c; eauto|discriminate]).
    intros s2 X2 O2 R2. bindy ltac:(apply IHderives; auto; len). intros s3 X3 O3 R3.
    rewrite map_insert_new.
    2:{ rewrite map_app in ND. cbn in ND. apply NoDup_remove_2 in ND. now rewrite app_nil_r in ND. }
    apply y_get_bind.
    match goal with |- yields b (if ?x then _ else _) _ _ _ => destruct x eqn:SP end.
    + apply (separator_iff toks OK s3 (proj1 O3)) in SP. destruct SP as (r' & SP).
      rewrite R3 in SP. now elim (H2 r').
    + now apply y_ret_to.
  - (* more entries *) intros n fuel acc s O R L F ND. destruct fuel as [|f0]; [lia|]. cbn [literal_map_loop].
    apply y_get_bind.
    assert (EH : entry_here (rest s)).
    { rewrite R. exists t, c, i. split; auto. split; auto. destruct H as [[-> _]|[-> _]]; cbn; auto. }
    apply (entry_iff toks OK s (proj1 O)) in EH. rewrite EH. cbn [negb]. apply y_get_bind.
    rewrite rest_nth, R. cbn [hd_error].
    eapply y_bind with (a := k) (i1 := t :: c :: i).
    { destruct H as [[-> ->]|[-> ->]]; now apply y_ret_to. }
    intros s0 X0 O0 R0.
    bindy ltac:(eapply y_advance; eauto; destruct H as [[-> _]|[-> _]]; discriminate).
    intros s1 X1 O1 R1. bindy ltac:(eapply y_consume; auto; [rewrite R1; exists c; eauto|discriminate]).
    intros s2 X2 O2 R2. bindy ltac:(apply IHderives1; auto; len). intros s3 X3 O3 R3.
    rewrite map_insert_new.
    2:{ rewrite map_app in ND. cbn in ND. apply NoDup_remove_2 in ND. intros I. apply ND, in_app_iff. auto. }
    apply y_get_bind.
    match goal with |- yields b (if ?x then _ else _) _ _ _ => assert (SP : x = true) end.
    { apply (separator_iff toks OK s3 (proj1 O3)). rewrite R3. eauto. }
    rewrite SP.
    assert (Y : exists w, r1 = w :: r2 /\ t_type w <> Eof).
    { destruct H2 as [(w & W & KW)|[(w & W & KW) _]]; exists w; rewrite KW; split; auto; discriminate. }
    destruct Y as (w & W & KW).
    bindy ltac:(eapply y_advance; [auto|rewrite R3; eauto|auto]). intros s4 X4 O4 R4.
    replace (acc ++ (k, e) :: m) with ((acc ++ [(k, e)]) ++ m) in * by now rewrite <- app_assoc.
    apply IHderives2; auto; len.
  - (* one parameter *) intros fuel acc s O R F A. destruct fuel as [|f0]; [lia|]. cbn [param_loop].
    bindy ltac:(eapply y_name; auto; rewrite R; eauto). intros s1 X1 O1 R1. cbn beta iota.
    destruct (Nat.leb_spec 255 (length acc)) as [Z|Z]; [cbn in A; unfold max_parameters in A; lia|].
    bindy ltac:(apply y_match_none; auto; [now rewrite R1|discriminate]). intros s2 X2 O2 R2.
    apply y_ret_to; auto. congruence.
  - (* more parameters *) intros fuel acc s O R F A. destruct fuel as [|f0]; [lia|]. cbn [param_loop].
    bindy ltac:(eapply y_name; auto; rewrite R; eauto). intros s1 X1 O1 R1. cbn beta iota.
    destruct (Nat.leb_spec 255 (length acc)) as [Z|Z]; [cbn in A; unfold max_parameters in A; lia|].
    bindy ltac:(eapply y_match_then; auto; [rewrite R1; eauto|discriminate]). intros s2 X2 O2 R2.
    cbn beta iota.
    match goal with |- yields _ _ _ (acc ++ ?p :: ps) _ =>
      replace (acc ++ p :: ps) with ((acc ++ [p]) ++ ps) by now rewrite <- app_assoc end.
    apply IHderives; auto; try len. rewrite app_length. cbn in *. lia.
  - (* function without parameters *) intros n s O R L. unfold function_definition.
    bindy ltac:(eapply y_paren; auto; rewrite R; eauto). intros s1 X1 O1 R1.
    eapply y_check; auto; [discriminate|rewrite R1; eapply starts_then; eauto; cbn; auto|].
    apply y_ret_bind. bindy ltac:(eapply y_consume; auto; [rewrite R1; eauto|discriminate]).
    intros s2 X2 O2 R2.
    assert (Y := IHderives n "Expect '{' or indent before function body." s2 O2 R2 ltac:(len)).
    destruct Y as (s3 & E3 & X3 & R3). exists s3. split; [|auto]. unfold pbind in *.
    destruct (consume_begin_block _ _ _ s2) as [k s4|?|?|]; try discriminate.
    rewrite E3. reflexivity.
  - (* function *) intros n s O R L. unfold function_definition.
    bindy ltac:(eapply y_paren; auto; rewrite R; eauto). intros s1 X1 O1 R1.
    eapply y_check_no; auto; [discriminate|rewrite R1; nf|].
    bindy ltac:(apply (IHderives1 (loop_fuel toks) nil); auto; [eapply fuel_ok; eauto]). intros s2 X2 O2 R2.
    bindy ltac:(eapply y_consume; auto; [rewrite R2; eauto|discriminate]).
    intros s3 X3 O3 R3.
    assert (Y := IHderives2 n "Expect '{' or indent before function body." s3 O3 R3 ltac:(len)).
    destruct Y as (s4 & E4 & X4 & R4). exists s4. split; [|auto]. unfold pbind in *.
    destruct (consume_begin_block _ _ _ s3) as [k s5|?|?|]; try discriminate.
    rewrite E4. reflexivity.
  - (* block *) intros n msg s O R L. bindy ltac:(eapply y_begin; auto; rewrite R; eauto).
    intros s1 X1 O1 R1. unfold finish_block.
    apply (IHderives ltac:(inversion H; auto) n (loop_fuel toks) nil); auto; [len|eapply fuel_ok; eauto].
  - (* end of a block *) intros CK n fuel acc msg s O R L F.
    assert (NE : k <> Eof) by (destruct CK; congruence).
    destruct fuel as [|f0]; [lia|]. cbn [block_loop]. apply y_bind_assoc, y_get_bind.
    rewrite (check_yes b k s O NE) by (rewrite R; eapply starts_then; eauto; cbn; auto).
    cbn [negb andb]. apply y_ret_bind. rewrite app_nil_r.
    bindy ltac:(eapply y_end; auto; rewrite R; eauto). intros s1 X1 O1 R1. now apply y_ret_to.
  - (* more of a block *) intros CK n fuel acc msg s O R L F.
    assert (NE : k <> Eof) by (destruct CK; congruence).
    destruct fuel as [|f0]; [lia|]. cbn [block_loop]. apply y_bind_assoc, y_get_bind.
    rewrite (check_no b k s O NE) by (rewrite R; destruct CK as [-> | ->]; nf).
    rewrite (at_end_no s decl_first (proj1 O)).
    2:{ rewrite R. exact (first _ _ _ _ _ _ H ltac:(discriminate)). }
    2:{ intros I. revert I. cbn. intuition discriminate. }
    cbn [negb andb]. apply y_bind_assoc.
    bindy ltac:(apply IHderives1; auto). intros s1 X1 O1 R1.
    replace (acc ++ st :: l) with ((acc ++ [st]) ++ l) by now rewrite <- app_assoc.
    assert (M := statement_moves _ _ _ _ _ _ H I). apply IHderives2; auto; len.
  - (* class *) intros n0 s O R L. destruct n0 as [|n0]; [lia|]. cbn [level k_decl]. unfold declaration.
    bindy ltac:(eapply y_match_then; auto; [rewrite R; eauto|discriminate]). intros s1 X1 O1 R1.
    unfold finish_class_declaration. bindy ltac:(eapply y_name; auto; rewrite R1; eauto).
    intros s2 X2 O2 R2. cbn beta iota.
    bindy ltac:(apply y_match_none; auto; [rewrite R2|discriminate]).
    { destruct H1 as [t u j K1 K2|t j K1]; rewrite starts_one, K1; discriminate. }
    intros s3 X3 O3 R3. apply y_ret_bind.
    bindy ltac:(eapply y_begin; auto; rewrite R3, R2; eauto). intros s4 X4 O4 R4.
    assert (Y := IHderives ltac:(inversion H1; auto) n0 (loop_fuel toks) nil " after class method body." s4 O4 R4
      ltac:(len) (fuel_ok _ _ R4)).
    destruct Y as (s5 & E5 & X5 & R5). exists s5. split; [|auto]. unfold pbind in *.
    destruct (method_loop _ _ _ _ _ _ s4) as [ms' s6|?|?|]; try discriminate.
    destruct (consume_end_block _ _ _ _ s6) as [? s7|?|?|]; try discriminate.
    injection E5 as -> ->. reflexivity.
  - (* subclass *) intros n0 s0 O R L. destruct n0 as [|n0]; [lia|]. cbn [level k_decl]. unfold declaration.
    bindy ltac:(eapply y_match_then; auto; [rewrite R; eauto|discriminate]). intros s1 X1 O1 R1.
    unfold finish_class_declaration. bindy ltac:(eapply y_name; auto; rewrite R1; eauto).
    intros s2 X2 O2 R2. cbn beta iota.
    bindy ltac:(eapply y_match_then; auto; [rewrite R2; eauto|discriminate]).
    intros s3 X3 O3 R3. apply y_bind_assoc.
    bindy ltac:(eapply y_name; auto; rewrite R3; eauto). intros s31 X31 O31 R31. apply y_ret_bind.
    bindy ltac:(eapply y_begin; auto; rewrite R31; eauto). intros s4 X4 O4 R4.
    assert (Y := IHderives ltac:(inversion H3; auto) n0 (loop_fuel toks) nil " after class method body." s4 O4 R4
      ltac:(len) (fuel_ok _ _ R4)).
    destruct Y as (s5 & E5 & X5 & R5). exists s5. split; [|auto]. unfold pbind in *.
    destruct (method_loop _ _ _ _ _ _ s4) as [ms' s6|?|?|]; try discriminate.
    destruct (consume_end_block _ _ _ _ s6) as [? s7|?|?|]; try discriminate.
    injection E5 as -> ->. reflexivity.
  - (* end of methods *) intros CK n fuel acc msg s O R L F.
    assert (NE : k <> Eof) by (destruct CK; congruence).
    destruct fuel as [|f0]; [lia|]. cbn [method_loop]. apply y_bind_assoc, y_get_bind.
    rewrite (check_yes b k s O NE) by (rewrite R; eapply starts_then; eauto; cbn; auto).
    cbn [negb andb]. apply y_ret_bind. rewrite app_nil_r.
    bindy ltac:(eapply y_end; auto; rewrite R; eauto). intros s1 X1 O1 R1. now apply y_ret_to.
  - (* methods *) intros CK n0 fuel acc msg s O R L F.
    assert (NE : k <> Eof) by (destruct CK; congruence).
    destruct fuel as [|f0]; [lia|]. cbn [method_loop]. apply y_bind_assoc, y_get_bind.
    assert (ST : starts [Identifier] i) by (eapply starts_name; eauto; cbn; auto).
    rewrite (check_no b k s O NE).
    2:{ rewrite R. eapply starts_not; [exact ST|]. destruct CK as [-> | ->]; cbn; intuition congruence. }
    rewrite (at_end_no s [Identifier] (proj1 O)) by (rewrite ?R; auto; cbn; intuition discriminate).
    cbn [negb andb]. apply y_bind_assoc.
    bindy ltac:(apply y_match_none; auto; [|discriminate]).
    { rewrite R. eapply starts_not; [exact ST|]. cbn. intuition congruence. }
    intros s1 X1 O1 R1. apply y_bind_assoc. unfold finish_fun_declaration. apply y_bind_assoc.
    bindy ltac:(eapply y_name; auto; rewrite R1, R; eauto). intros s2 X2 O2 R2. cbn beta iota.
    apply y_bind_assoc. bindy ltac:(apply IHderives1; auto; len). intros s3 X3 O3 R3. apply y_ret_bind.
    assert (M := derives_length _ _ _ _ _ _ H0).
    match goal with |- yields _ _ _ (acc ++ ?p :: ms) _ =>
      replace (acc ++ p :: ms) with ((acc ++ [p]) ++ ms) by now rewrite <- app_assoc end.
    match goal with |- context [acc ++ [set_fun_type ?x ?y]] =>
      replace (set_fun_type x y) with
        (NamedFun (t_lexeme n) (with_kind (method_kind false (t_lexeme n)) f)) by now destruct f end.
    apply IHderives2; auto; len.
  - (* class methods *) intros CK n0 fuel acc msg s O R L F.
    assert (NE : k <> Eof) by (destruct CK; congruence).
    destruct fuel as [|f0]; [lia|]. cbn [method_loop]. apply y_bind_assoc, y_get_bind.
    assert (ST : starts [Class] i) by (eapply starts_then; eauto; cbn; auto).
    rewrite (check_no b k s O NE).
    2:{ rewrite R. eapply starts_not; [exact ST|]. destruct CK as [-> | ->]; cbn; intuition congruence. }
    rewrite (at_end_no s [Class] (proj1 O)) by (rewrite ?R; auto; cbn; intuition discriminate).
    cbn [negb andb]. apply y_bind_assoc.
    bindy ltac:(eapply y_match_then; auto; [rewrite R; eauto|discriminate]).
    intros s1 X1 O1 R1. apply y_bind_assoc. unfold finish_fun_declaration. apply y_bind_assoc.
    bindy ltac:(eapply y_name; auto; rewrite R1; eauto). intros s2 X2 O2 R2. cbn beta iota.
    apply y_bind_assoc. bindy ltac:(apply IHderives1; auto; len). intros s3 X3 O3 R3. apply y_ret_bind.
    assert (M := derives_length _ _ _ _ _ _ H1).
    match goal with |- yields _ _ _ (acc ++ ?p :: ms) _ =>
      replace (acc ++ p :: ms) with ((acc ++ [p]) ++ ms) by now rewrite <- app_assoc end.
    match goal with |- context [acc ++ [set_fun_type ?x ?y]] =>
      replace (set_fun_type x y) with
        (NamedFun (t_lexeme n) (with_kind (method_kind true (t_lexeme n)) f)) by now destruct f end.
    apply IHderives2; auto; len.
  - (* fun *) intros n0 s O R L. destruct n0 as [|n0]; [lia|]. cbn [level k_decl]. unfold declaration.
    assert (ST : starts [Fun] i) by (eapply starts_then; eauto; cbn; auto).
    bindy ltac:(apply y_match_none; auto; [|discriminate]).
    { rewrite R. eapply starts_not; [exact ST|]. cbn. intuition congruence. }
    intros s1 X1 O1 R1. rewrite R in R1. apply y_get_bind.
    rewrite (check_yes b Fun s1 O1) by (try discriminate; now rewrite R1).
    assert (C : check_next_st toks Identifier s1 = true).
    { apply (check_next_iff toks OK); [apply O1|]. rewrite R1. destruct H as (t & -> & K), H0 as (-> & K').
      eauto 8. }
    rewrite C. cbn [andb]. bindy ltac:(eapply y_consume; auto; [rewrite R1; eauto|discriminate]).
    intros s2 X2 O2 R2. unfold finish_fun_declaration. apply y_bind_assoc.
    bindy ltac:(eapply y_name; auto; rewrite R2; eauto). intros s3 X3 O3 R3. cbn beta iota.
    apply y_bind_assoc. bindy ltac:(apply IHderives; auto; len). intros s4 X4 O4 R4.
    apply y_ret_bind. now apply y_ret_to.
  - (* var *) intros n0 s O R L. destruct n0 as [|n0]; [lia|]. cbn [level k_decl]. unfold declaration.
    assert (ST : starts [Var] i) by (eapply starts_then; eauto; cbn; auto).
    bindy ltac:(apply y_match_none; auto; [|discriminate]).
    { rewrite R. eapply starts_not; [exact ST|]. cbn. intuition congruence. }
    intros s1 X1 O1 R1. rewrite R in R1. apply y_get_bind.
    rewrite (check_no b Fun s1 O1).
    2: discriminate.
    2:{ rewrite R1. eapply starts_not; [exact ST|]. cbn. intuition congruence. }
    cbn [andb]. bindy ltac:(eapply y_match_then; auto; [rewrite R1; eauto|discriminate]).
    intros s2 X2 O2 R2. apply IHderives; auto; len.
  - (* var without initializer *) intros n0 s O R L. unfold finish_var_declaration.
    bindy ltac:(eapply y_name; auto; rewrite R; eauto). intros s1 X1 O1 R1. cbn beta iota.
    bindy ltac:(apply y_matches_none; auto).
    { rewrite R1. destruct H0 as (t & -> & K). cbn. rewrite K. destruct for_init; intuition discriminate. }
    intros s2 X2 O2 R2. rewrite R1 in R2. apply y_ret_bind. cbn beta iota.
    destruct for_init; (bindy ltac:(eapply y_consume; auto; [rewrite R2; eauto|discriminate]));
      intros s3 X3 O3 R3; now apply y_ret_to.
  - (* var *) intros n0 s O R L. unfold finish_var_declaration.
    bindy ltac:(eapply y_name; auto; rewrite R; eauto). intros s1 X1 O1 R1. cbn beta iota.
    assert (EQ := H0). destruct H0 as (t & -> & K).
    bindy ltac:(eapply y_matches; [auto|exact R1|rewrite K; cbn; auto|rewrite K; discriminate]).
    intros s2 X2 O2 R2. apply y_bind_assoc.
    assert (Y : exists m, yields b (match_token toks Terminator) s2 m i3).
    { destruct H1 as [t' j K'|j K'].
      - exists true. eapply y_match_token; eauto. discriminate.
      - exists false. rewrite <- R2. apply y_match_none; auto; [now rewrite R2|discriminate]. }
    destruct Y as [m Y]. bindy ltac:(exact Y). intros s3 X3 O3 R3. apply y_bind_assoc, y_get_bind, y_bind_assoc.
    bindy ltac:(apply (IHderives (S n0)); auto; len). intros s4 X4 O4 R4. apply y_ret_bind. cbn beta iota.
    destruct for_init.
    + bindy ltac:(eapply y_consume; auto; [rewrite R4; eauto|discriminate]).
      intros s5 X5 O5 R5. now apply y_ret_to.
    + destruct (check_st toks Indent s3) eqn:CI, (check_st toks LeftBrace s3) eqn:CL; cbn [negb andb].
      4:{ destruct H3 as [H3|(ST & _)].
        - bindy ltac:(eapply y_consume; auto; [rewrite R4; eauto|discriminate]).
          intros s5 X5 O5 R5. now apply y_ret_to.
        - exfalso. destruct i3 as [|w i3]; [contradiction|]. destruct ST as [W|[W|[]]].
          + rewrite (check_yes b Indent s3 O3) in CI; try discriminate. rewrite R3. cbn. auto.
          + rewrite (check_yes b LeftBrace s3 O3) in CL; try discriminate. rewrite R3. cbn. auto. }
      all: apply y_bind_assoc; destruct H3 as [H3|(_ & NT & ->)];
        [bindy ltac:(eapply y_match_then; auto; [rewrite R4; eauto|discriminate])
        |bindy ltac:(apply y_match_none; auto; [now rewrite R4|discriminate])];
        intros s5 X5 O5 R5; apply y_ret_bind; apply y_ret_to; auto; congruence.
  - (* statement *) intros n0 s O R L. destruct n0 as [|n0]; [lia|]. cbn [level k_decl]. unfold declaration.
    bindy ltac:(apply y_match_none; auto; [rewrite R; nf|discriminate]).
    intros s1 X1 O1 R1. rewrite R in R1. apply y_get_bind.
    assert (C : check_st toks Fun s1 && check_next_st toks Identifier s1 = false).
    { destruct (check_st toks Fun s1) eqn:C1; auto. destruct (check_next_st toks Identifier s1) eqn:C2; auto.
      exfalso. apply (check_iff toks) in C1; [|apply O1|discriminate].
      apply (check_next_iff toks OK) in C2; [|apply O1]. destruct C2 as (t & c & q & E & K).
      rewrite E in C1. apply starts_one in C1. rewrite R1 in E.
      now apply (fun_unnamed _ _ _ _ _ H eq_refl t c q E). }
    rewrite C. bindy ltac:(apply y_match_none; auto; [rewrite R1; nf|discriminate]).
    intros s2 X2 O2 R2. rewrite R1 in R2. apply (IHderives (S n0)); auto.
  - (* expression statement *) intros n0 s O R L. destruct n0 as [|n0]; [lia|]. cbn [level k_stmt].
    unfold statement. bindy ltac:(apply y_matches_none; auto).
    { rewrite R. assert (S := first _ _ _ _ _ _ H0 ltac:(discriminate)). intros S'.
      destruct i as [|t i]; cbn [starts first_of] in *; auto.
      assert (Z : t_type t <> LeftBrace) by (intros Z; apply H; left; auto).
      revert S S' Z. generalize (t_type t). intros k S S' Z. cbn in S'.
      repeat (destruct S' as [<-|S']; [revert S; cbn; intuition discriminate|]). contradiction. }
    intros s1 X1 O1 R1. rewrite R in R1. apply IHderives; auto. lia.
  - (* with a line end *) intros n0 s O R L. unfold expression_statement.
    bindy ltac:(apply (IHderives (S n0)); auto; lia). intros s1 X1 O1 R1. apply y_get_bind.
    rewrite (check_yes b Terminator s1 O1) by (try discriminate; rewrite R1; eapply starts_then; eauto; cbn; auto).
    rewrite orb_true_r. bindy ltac:(eapply y_consume; auto; [rewrite R1; eauto|discriminate]).
    intros s2 X2 O2 R2. now apply y_ret_to.
  - (* at the end *) intros n0 s O R L. unfold expression_statement.
    bindy ltac:(apply (IHderives (S n0)); auto; lia). intros s1 X1 O1 R1. apply y_get_bind.
    rewrite H0, (check_no b Terminator s1 O1).
    2: discriminate.
    2:{ rewrite R1. eapply starts_not; [exact H1|]. cbn. intuition congruence. }
    assert (E : is_at_end toks s1 = true) by (apply at_end_iff; [apply O1|now rewrite R1]).
    rewrite E. cbn [negb andb orb]. apply y_ret_bind. now apply y_ret_to.
  - (* break *) intros n0 s O R L. destruct n0 as [|n0]; [lia|]. cbn [level k_stmt]. unfold statement.
    bindy ltac:(eapply y_matches; eauto; rewrite H; [inb|discriminate]). intros s1 X1 O1 R1. rewrite H.
    unfold finish_break_statement. apply y_get_bind.
    destruct (Nat.eqb_spec (loops s1) 0) as [Z|Z].
    { exfalso. destruct O1 as [_ O1]. unfold inside in O1. rewrite Z in O1. discriminate. }
    bindy ltac:(eapply y_consume; auto; [rewrite R1; eauto|discriminate]).
    intros s2 X2 O2 R2. now apply y_ret_to.
  - (* continue *) intros n0 s O R L. destruct n0 as [|n0]; [lia|]. cbn [level k_stmt]. unfold statement.
    bindy ltac:(eapply y_matches; eauto; rewrite H; [inb|discriminate]). intros s1 X1 O1 R1. rewrite H.
    unfold finish_continue_statement. apply y_get_bind.
    destruct (Nat.eqb_spec (loops s1) 0) as [Z|Z].
    { exfalso. destruct O1 as [_ O1]. unfold inside in O1. rewrite Z in O1. discriminate. }
    bindy ltac:(eapply y_consume; auto; [rewrite R1; eauto|discriminate]).
    intros s2 X2 O2 R2. now apply y_ret_to.
  - (* print *) intros n0 s O R L. destruct n0 as [|n0]; [lia|]. cbn [level k_stmt]. unfold statement.
    assert (TT := H). destruct TT as (t & E & K).
    bindy ltac:(eapply y_matches; [auto|rewrite R; exact E|rewrite K; inb|rewrite K; discriminate]).
    intros s1 X1 O1 R1. rewrite K. unfold finish_print_statement.
    bindy ltac:(apply (IHderives (S n0)); auto; len). intros s2 X2 O2 R2.
    bindy ltac:(eapply y_consume; auto; [rewrite R2; eauto|discriminate]).
    intros s3 X3 O3 R3. now apply y_ret_to.
  - (* return *) intros n0 s O R L. destruct n0 as [|n0]; [lia|]. cbn [level k_stmt]. unfold statement.
    bindy ltac:(eapply y_matches; eauto; rewrite H; [inb|discriminate]). intros s1 X1 O1 R1. rewrite H.
    unfold finish_return_statement. eapply y_check_no; auto; [discriminate|rewrite R1; nf|].
    bindy ltac:(apply (IHderives (S n0)); auto; len). intros s2 X2 O2 R2.
    bindy ltac:(eapply y_consume; auto; [rewrite R2; eauto|discriminate]).
    intros s3 X3 O3 R3. now apply y_ret_to.
  - (* return without value *) intros n0 s O R L. destruct n0 as [|n0]; [lia|]. cbn [level k_stmt]. unfold statement.
    bindy ltac:(eapply y_matches; eauto; rewrite H; [inb|discriminate]). intros s1 X1 O1 R1. rewrite H.
    unfold finish_return_statement.
    eapply y_check; auto; [discriminate|rewrite R1; eapply starts_then; eauto; cbn; auto|].
    apply y_ret_bind. bindy ltac:(eapply y_consume; auto; [rewrite R1; eauto|discriminate]).
    intros s3 X3 O3 R3. now apply y_ret_to.
  - (* block *) intros n0 s O R L. destruct n0 as [|n0]; [lia|]. cbn [level k_stmt]. unfold statement.
    assert (TT := H). destruct TT as (t & E & K).
    bindy ltac:(eapply y_matches; [auto|rewrite R; exact E|rewrite K; inb|rewrite K; discriminate]).
    intros s1 X1 O1 R1. rewrite K. unfold finish_block.
    bindy ltac:(apply (IHderives (or_intror eq_refl) n0 (loop_fuel toks) nil); auto; [len|eapply fuel_ok; eauto]).
    intros s2 X2 O2 R2. now apply y_ret_to.
  - (* branch: block *) intros n0 msg s O R L. unfold branch_fn. apply y_get_bind.
    assert (C : check_st toks Terminator s || check_st toks LeftBrace s = true).
    { assert (S := first _ _ _ _ _ _ H ltac:(discriminate)). rewrite <- R in S.
      destruct (rest s) as [|t i0] eqn:R0; [contradiction|]. apply orb_true_iff. destruct S as [S|[S|[]]].
      - left. apply (check_yes b); auto; [discriminate|]. rewrite R0. cbn. auto.
      - right. apply (check_yes b); auto; [discriminate|]. rewrite R0. cbn. auto. }
    rewrite C. assert (Y := IHderives n0 msg s O R ltac:(lia)).
    destruct Y as (s1 & E1 & X1 & R1). exists s1. split; [|auto]. unfold pbind in *.
    destruct (consume_begin_block _ _ _ s) as [k s2|?|?|]; try discriminate.
    rewrite E1. reflexivity.
  - (* branch: statement *) intros n0 msg s O R L. unfold branch_fn. apply y_get_bind.
    rewrite (check_no b Terminator s O) by (try discriminate; rewrite R; nf).
    rewrite (check_no b LeftBrace s O) by (try discriminate; now rewrite R).
    cbn [orb]. apply IHderives; auto.
  - (* if *) intros n0 s O R L. destruct n0 as [|n0]; [lia|]. cbn [level k_stmt]. unfold statement.
    assert (TT := H). destruct TT as (t & E & K).
    bindy ltac:(eapply y_matches; [auto|rewrite R; exact E|rewrite K; inb|rewrite K; discriminate]).
    intros s1 X1 O1 R1. rewrite K. unfold finish_if_statement.
    bindy ltac:(eapply y_paren; auto; rewrite R1; eauto). intros s2 X2 O2 R2.
    bindy ltac:(apply (IHderives1 (S n0)); auto; len). intros s3 X3 O3 R3.
    bindy ltac:(eapply y_consume; auto; [rewrite R3; eauto|discriminate]). intros s4 X4 O4 R4.
    assert (Y := IHderives2 n0 "Expect '{' or indent before if body." s4 O4 R4 ltac:(len)).
    unfold branch_fn in Y. eapply y_ext; [apply if_assoc2|].
    bindy ltac:(exact Y). intros s5 X5 O5 R5.
    bindy ltac:(apply y_match_none; auto; [now rewrite R5|discriminate]). intros s6 X6 O6 R6.
    apply y_ret_bind. apply y_ret_to; auto. congruence.
  - (* if else *) intros n0 s O R L. destruct n0 as [|n0]; [lia|]. cbn [level k_stmt]. unfold statement.
    assert (TT := H). destruct TT as (t & E & K).
    bindy ltac:(eapply y_matches; [auto|rewrite R; exact E|rewrite K; inb|rewrite K; discriminate]).
    intros s1 X1 O1 R1. rewrite K. unfold finish_if_statement.
    bindy ltac:(eapply y_paren; auto; rewrite R1; eauto). intros s2 X2 O2 R2.
    bindy ltac:(apply (IHderives1 (S n0)); auto; len). intros s3 X3 O3 R3.
    bindy ltac:(eapply y_consume; auto; [rewrite R3; eauto|discriminate]). intros s4 X4 O4 R4.
    assert (Y := IHderives2 n0 "Expect '{' or indent before if body." s4 O4 R4 ltac:(len)).
    unfold branch_fn in Y. eapply y_ext; [apply if_assoc2|].
    bindy ltac:(exact Y). intros s5 X5 O5 R5.
    bindy ltac:(eapply y_match_then; auto; [rewrite R5; eauto|discriminate]). intros s6 X6 O6 R6.
    apply y_bind_assoc. bindy ltac:(apply IHderives3; auto; len). intros s7 X7 O7 R7. apply y_ret_bind.
    now apply y_ret_to.
  - (* while *) intros n0 s O R L. destruct n0 as [|n0]; [lia|]. cbn [level k_stmt]. unfold statement.
    assert (TT := H). destruct TT as (t & E & K).
    bindy ltac:(eapply y_matches; [auto|rewrite R; exact E|rewrite K; inb|rewrite K; discriminate]).
    intros s1 X1 O1 R1. rewrite K. unfold finish_while_statement.
    bindy ltac:(eapply y_paren; auto; rewrite R1; eauto). intros s2 X2 O2 R2.
    bindy ltac:(apply (IHderives1 (S n0)); auto; len). intros s3 X3 O3 R3.
    bindy ltac:(eapply y_consume; auto; [rewrite R3; eauto|discriminate]). intros s4 X4 O4 R4.
    bindy ltac:(apply y_loop_body; [auto|apply IHderives2; [split; [apply O4|reflexivity]|exact R4|len]]).
    intros s5 X5 O5 R5. now apply y_ret_to.
  - (* no initializer *) intros n s O R L. unfold for_init_fn.
    bindy ltac:(eapply y_match_then; auto; [rewrite R; eauto|discriminate]). intros s1 X1 O1 R1.
    now apply y_ret_to.
  - (* var initializer *) intros n s O R L. unfold for_init_fn.
    assert (ST : starts [Var] i) by (eapply starts_then; eauto; cbn; auto).
    bindy ltac:(apply y_match_none; auto; [|discriminate]).
    { rewrite R. eapply starts_not; [exact ST|]. cbn. intuition congruence. }
    intros s1 X1 O1 R1. rewrite R in R1.
    bindy ltac:(eapply y_match_then; auto; [rewrite R1; eauto|discriminate]). intros s2 X2 O2 R2.
    bindy ltac:(apply IHderives; auto; len). intros s3 X3 O3 R3. now apply y_ret_to.
  - (* expression initializer *) intros n s O R L. unfold for_init_fn.
    bindy ltac:(apply y_match_none; auto; [rewrite R; nf|discriminate]). intros s1 X1 O1 R1. rewrite R in R1.
    bindy ltac:(apply y_match_none; auto; [rewrite R1; nf|discriminate]). intros s2 X2 O2 R2. rewrite R1 in R2.
    bindy ltac:(apply IHderives; auto; len). intros s3 X3 O3 R3. now apply y_ret_to.
  - (* no condition *) intros n s O R L. unfold condition_fn.
    eapply y_check; auto; [discriminate|now rewrite R|]. now apply y_ret_to.
  - (* condition *) intros n s O R L. unfold condition_fn.
    eapply y_check_no; auto; [discriminate|rewrite R; nf|]. apply (IHderives (S n)); auto. lia.
  - (* no increment *) intros n s O R L. unfold increment_fn.
    eapply y_check; auto; [discriminate|now rewrite R|]. now apply y_ret_to.
  - (* increment *) intros n s O R L. unfold increment_fn.
    eapply y_check_no; auto; [discriminate|rewrite R; nf|].
    bindy ltac:(apply (IHderives (S n)); auto; lia). intros s1 X1 O1 R1. now apply y_ret_to.
  - (* for *) intros n0 s O R L. destruct n0 as [|n0]; [lia|]. cbn [level k_stmt]. unfold statement.
    assert (TT := H). destruct TT as (t & E & K).
    bindy ltac:(eapply y_matches; [auto|rewrite R; exact E|rewrite K; inb|rewrite K; discriminate]).
    intros s1 X1 O1 R1. rewrite K. unfold finish_for_statement.
    bindy ltac:(eapply y_paren; auto; rewrite R1; eauto). intros s2 X2 O2 R2.
    assert (Y := IHderives1 n0 s2 O2 R2 ltac:(len)). unfold for_init_fn in Y.
    eapply y_ext; [apply if_assoc2|].
    bindy ltac:(exact Y). intros s3 X3 O3 R3.
    assert (Y2 := IHderives2 n0 s3 O3 R3 ltac:(len)). unfold condition_fn in Y2.
    eapply y_ext; [apply if_assoc2|]. bindy ltac:(exact Y2). intros s4 X4 O4 R4.
    bindy ltac:(eapply y_consume; auto; [rewrite R4; eauto|discriminate]). intros s5 X5 O5 R5.
    assert (Y3 := IHderives3 n0 s5 O5 R5 ltac:(len)). unfold increment_fn in Y3.
    eapply y_ext; [apply if_assoc2|]. bindy ltac:(exact Y3). intros s6 X6 O6 R6.
    bindy ltac:(eapply y_consume; auto; [rewrite R6; eauto|discriminate]). intros s7 X7 O7 R7.
    bindy ltac:(apply y_loop_body; [auto|apply IHderives4; [split; [apply O7|reflexivity]|exact R7|len]]).
    intros s8 X8 O8 R8. unfold for_tree. destruct init, inc; now apply y_ret_to.
  - (* end of the program *) intros fuel acc s V I R F. destruct fuel as [|f0]; [lia|]. cbn [parse_loop].
    assert (E : is_at_end toks s = true).
    { unfold is_at_end. rewrite rest_nth, R. destruct i as [|t i]; [contradiction|]. cbn [hd_error].
      apply starts_one in H. apply tt_eqb_iff. exact H. }
    rewrite E, app_nil_r. exists s. auto.
  - (* more of the program *) intros fuel acc s V I R F. destruct fuel as [|f0]; [lia|]. cbn [parse_loop].
    assert (ST := first _ _ _ _ _ _ H ltac:(discriminate)). cbn [first_of] in ST.
    assert (E : is_at_end toks s = false).
    { destruct (is_at_end toks s) eqn:E; auto. exfalso.
      apply (end_eof toks) in E; auto. rewrite R in E.
      revert ST. eapply starts_not; [exact E|]. intros k [<-|[]]. cbn. intuition discriminate. }
    rewrite E. assert (VV := not_end_valid toks s V E).
    assert (LT := f_equal (@List.length token) R). rewrite rest_length in LT.
    destruct (IHderives1 (nesting_fuel toks) s (conj VV I) R ltac:(unfold nesting_fuel; lia))
      as (s1 & -> & X1 & R1).
    replace (acc ++ st :: l) with ((acc ++ [st]) ++ l) by now rewrite <- app_assoc.
    assert (M := statement_moves _ _ _ _ _ _ H Logic.I).
    destruct X1 as ((V1 & _) & I1 & _). apply IHderives2; auto. lia.
Qed.
End Complete.

(** ** The parser accepts exactly the grammar *)
Section Exact.
Variable toks : list token.
Variable trailing oc : bool.
Hypothesis OK : tokens_ok toks.

Theorem parse_tokens_exact : forall l,
  parse_tokens toks trailing oc = Done (Ok l) <->
  exists eof, t_type eof = Eof /\ derives trailing false Program toks (VSs l) [eof].
Proof.
  intros l. split.
  - intros E. destruct (parse_tokens_spec toks trailing oc OK) as (r & E' & H).
    rewrite E in E'. injection E' as <-. exact H.
  - intros (eof & K & H). apply (complete_all toks trailing oc OK) in H. cbn [complete] in H.
    destruct (H (loop_fuel toks) nil (mkP 0 0)) as (s' & E & R & S).
    + exact (toks_nonempty toks OK).
    + reflexivity.
    + reflexivity.
    + unfold loop_fuel. lia.
    + unfold parse_tokens. rewrite E. cbn [obind app].
      rewrite consume_eof; auto.
      * assert (L := f_equal (@List.length token) R). rewrite rest_length in L. cbn in L. lia.
      * unfold is_at_end. rewrite rest_nth, R. cbn. now apply tt_eqb_iff.
Qed.
Theorem parse_expression_exact : forall e,
  parse_expression_tokens toks trailing oc = Done (Ok e) <->
  exists eof, t_type eof = Eof /\ derives trailing false Expression toks (VE e) [eof].
Proof.
  intros e. destruct (Nat.eq_dec (length toks) 1) as [L|L].
  - rewrite parse_expression_empty by auto. split; [destruct oc; discriminate|].
    intros (eof & K & H). exfalso.
    destruct (proj1 (derives_moves _ _ _ _ _ _ H) I) as [M|[M S]]; [cbn in M; lia|].
    rewrite <- M in S. cbn in S. rewrite K in S. intuition discriminate.
  - split.
    + intros E. destruct (parse_expression_spec toks trailing oc OK L) as (r & E' & H).
      rewrite E in E'. injection E' as <-. exact H.
    + intros (eof & K & H). assert (M := H). apply derives_moves in M. destruct M as [M _].
      specialize (M I). apply (complete_all toks trailing oc OK) in H. cbn [complete] in H.
      destruct (H (nesting_fuel toks) (mkP 0 0)) as (s' & E & (V & X) & R).
      * split; [|reflexivity]. split; [exact (toks_nonempty toks OK)|]. intros _. unfold rest. cbn [cur skipn].
        assert (P := toks_nonempty toks OK).
        destruct OK as [(body & e' & -> & K' & F) _ _].
        destruct body as [|t body]; [now elim L|].
        cbn. inversion F; subst. intuition congruence.
      * reflexivity.
      * unfold nesting_fuel. lia.
      * unfold parse_expression_tokens, pbind. rewrite E. rewrite consume_eof; auto; [apply V|].
        unfold is_at_end. rewrite rest_nth, R. cbn. now apply tt_eqb_iff.
Qed.
(** The grammar is unambiguous. *)
Corollary program_unique : forall l l' e e', t_type e = Eof -> t_type e' = Eof ->
  derives trailing false Program toks (VSs l) [e] -> derives trailing false Program toks (VSs l') [e'] -> l = l'.
Proof.
  intros l l' e e' K K' H H'.
  assert (A : parse_tokens toks trailing oc = Done (Ok l)) by (apply parse_tokens_exact; eauto).
  assert (B : parse_tokens toks trailing oc = Done (Ok l')) by (apply parse_tokens_exact; eauto).
  congruence.
Qed.
End Exact.
