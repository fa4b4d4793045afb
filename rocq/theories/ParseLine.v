(** What the REPL accepts and what files may contain. *)
From Verif Require Import Base F64 Token Ast Scanner Parser SpecLex SpecLayout SpecScan SpecGrammar
  ScanCluster ScanLayout ScanProps ScanFinal ParseRun ParseFirst ParseComplete ParseProps ParseRepl.
From Coq Require Import Lia.

(** ** Tokens *)
Lemma ok_eof_only : forall toks, tokens_ok toks -> eof_only toks.
Proof.
  intros toks [(body & eof & -> & K & F) _ _] a t c Q E. rewrite Forall_forall in F.
  destruct c as [|u c] using rev_ind; auto. exfalso. clear IHc.
  assert (Q' : body ++ [eof] = (a ++ t :: c) ++ [u]) by (rewrite Q, <- app_assoc; reflexivity).
  apply app_inj_tail in Q'. destruct Q' as [-> _]. apply (F t); auto. apply in_or_app. right. now left.
Qed.
Lemma lenient : forall toks oc l, tokens_ok toks ->
  parse_tokens toks false oc = Done (Ok l) -> parse_tokens toks true oc = Done (Ok l).
Proof.
  intros toks oc l OK H. apply parse_tokens_exact in H; auto. apply parse_tokens_exact; auto.
  destruct H as (e & K & H). exists e. split; auto. now apply more_lenient.
Qed.
Lemma ok_line_end : forall j e x y, tokens_ok (j ++ [e]) -> t_type x = Terminator -> t_type y = Eof ->
  tokens_ok (j ++ [x; y]).
Proof.
  intros j e x y [(body & eof & Q & K & F) N S] X Y. apply app_inj_tail in Q. destruct Q as [-> ->]. split.
  - exists (body ++ [x]), y. rewrite <- app_assoc. split; auto. split; auto. apply Forall_app. split; auto.
    constructor; auto. congruence.
  - apply Forall_app in N. destruct N as [N _]. apply Forall_app. split; auto. repeat constructor; congruence.
  - apply Forall_app in S. destruct S as [S _]. apply Forall_app. split; auto. repeat constructor; congruence.
Qed.
(** A program of the REPL is a program of a file, perhaps after one more Terminator. *)
Lemma repl_tokens : forall j e oc l, tokens_ok (j ++ [e]) ->
  parse_tokens (j ++ [e]) true oc = Done (Ok l) ->
  parse_tokens (j ++ [e]) false oc = Done (Ok l) \/
  forall x y, t_type x = Terminator -> t_type y = Eof -> parse_tokens (j ++ [x; y]) false oc = Done (Ok l).
Proof.
  intros j e oc l OK H. apply parse_tokens_exact in H; auto. destruct H as (e' & K & H).
  assert (D : forall x y, t_type x = Terminator -> t_type y = Eof ->
    derives false false Program (j ++ [e]) (VSs l) [e'] \/
    derives false false Program (j ++ [x; y]) (VSs l) [y]).
  { intros x y X Y. destruct (line_end x y X Y _ _ _ _ _ H (ok_eof_only _ OK) I) as [D|[_ D]]; auto.
    destruct D as (_ & _ & _ & _ & _ & D). rewrite ins_last in D. auto. }
  destruct (parse_tokens (j ++ [e]) false oc) as [[l'|]| | |] eqn:P.
  1: left; pose proof P as P'; apply parse_tokens_exact in P'; auto; destruct P' as (e2 & K2 & D2);
     apply more_lenient in D2;
     assert (W : parse_tokens (j ++ [e]) true oc = Done (Ok l)) by (apply parse_tokens_exact; eauto);
     assert (W' : parse_tokens (j ++ [e]) true oc = Done (Ok l')) by (apply parse_tokens_exact; eauto);
     congruence.
  all: right; intros x y X Y; apply parse_tokens_exact; [eapply ok_line_end; eauto|]; exists y; split; auto;
       destruct (D x y X Y) as [D'|]; auto; exfalso;
       assert (W : parse_tokens (j ++ [e]) false oc = Done (Ok l)) by (apply parse_tokens_exact; eauto); congruence.
Qed.

(** ** Sources *)
Lemma next_not_line : forall p rest, next_not p rest -> ~ p s_nl -> next_not p (rest ++ [s_nl]).
Proof. intros p [|g r] H N; cbn in *; auto. Qed.
Lemma lexeme_line : forall U e rest, sane U -> lexeme U e rest -> is_illegal e = false -> lexeme U e (rest ++ [s_nl]).
Proof.
  intros U e rest Sn H L. inversion H; subst; try discriminate; try (econstructor; eassumption).
  - eapply LOp; eauto. apply next_not_line; auto. discriminate.
  - apply LSlash. apply next_not_line; auto. discriminate.
  - apply LComment; auto. destruct rest as [|g r]; cbn in *; auto.
  - apply LInteger; auto.
    + apply next_not_line; auto. intros D. apply digit_no_nl in D. discriminate.
    + intros (d & r & Q & D). destruct rest as [|g [|g' rest]].
      * discriminate.
      * cbn in Q. assert (d = s_nl) by congruence. subst. apply digit_no_nl in D. discriminate.
      * cbn in Q. assert (g = "." /\ g' = d) as [-> ->] by (split; congruence). eauto.
  - apply LDecimal; auto. apply next_not_line; auto. intros D. apply digit_no_nl in D. discriminate.
  - apply LWord; auto. apply next_not_line; auto. intros (c & C & D). vm_compute in C. injection C as <-.
    unfold sane in Sn. destruct D as [D|D]; [|discriminate]. congruence.
Qed.
Lemma lexes_line : forall U gs es, sane U -> lexes U gs es -> (forall e, In e es -> is_illegal e = false) ->
  lexes U (gs ++ [s_nl]) (es ++ [Newline]).
Proof.
  intros U gs es Sn H. induction H as [|e rest es L H IH]; intros I.
  - exact (LexCons U Newline nil nil (LNewline U nil) (LexNil U)).
  - rewrite <- app_assoc. cbn [app]. constructor.
    + apply lexeme_line; auto. apply I. now left.
    + apply IH. intros x X. apply I. now right.
Qed.
Lemma split_line : forall ps acc b pre last, split_lines acc ps = pre ++ [mkLine last ByEof] ->
  split_lines acc (ps ++ [(b, Newline)]) = pre ++ [mkLine last (ByNewline b); mkLine nil ByEof].
Proof.
  assert (S1 : forall (a : line) pre last r, a :: r = pre ++ [last] -> r <> nil ->
    exists pre', pre = a :: pre' /\ r = pre' ++ [last]).
  { intros a [|x pre] last r Q N; injection Q as -> ->; [congruence|eauto]. }
  assert (NE : forall ps acc, split_lines acc ps <> nil).
  { induction ps as [|[b e] ps IH]; intros acc; cbn; [discriminate|]. destruct e; auto; discriminate. }
  induction ps as [|[b' e] ps IH]; intros acc b pre last Q; cbn in *.
  - destruct pre as [|? [|]]; try discriminate. injection Q as <-. reflexivity.
  - destruct e; try (apply IH; auto; fail).
    + apply S1 in Q; auto. destruct Q as (pre' & -> & Q). cbn. f_equal. now apply IH.
    + apply S1 in Q; auto. destruct Q as (pre' & -> & Q). cbn. f_equal. now apply IH.
Qed.
Lemma split_last : forall ps acc, exists pre last, split_lines acc ps = pre ++ [mkLine last ByEof].
Proof.
  induction ps as [|[b e] ps IH]; intros acc; cbn.
  - exists nil, acc. reflexivity.
  - destruct e; auto.
    + destruct (IH nil) as (pre & last & ->). eexists (_ :: pre), last. reflexivity.
    + destruct (IH nil) as (pre & last & ->). eexists (_ :: pre), last. reflexivity.
Qed.
Lemma layout_line : forall pre last b stack joined prev toks errs st,
  layout stack joined prev (pre ++ [mkLine last ByEof]) = Some (toks, errs, st) ->
  layout stack joined prev (pre ++ [mkLine last (ByNewline b); mkLine nil ByEof])
    = Some (toks ++ terminator (mkLine last (ByNewline b)), errs, st).
Proof.
  induction pre as [|l pre IH]; intros last b stack joined prev toks errs st H; cbn [app layout] in *.
  - cbn [body ending] in *.
    destruct (match content last with nil => _ | first :: _ => _ end) as [[[op mi] s]|]; [|discriminate].
    cbn in H |- *. injection H as <- <- <-. now rewrite ?app_nil_r, <- app_assoc.
  - destruct (match content (body l) with nil => _ | first :: _ => _ end) as [[[op mi] s]|]; [|discriminate].
    destruct (layout s _ _ (pre ++ [mkLine last ByEof])) as [[[t2 e2] s2]|] eqn:E; [|discriminate].
    injection H as <- <- <-. rewrite (IH _ _ _ _ _ _ _ _ E). now rewrite <- !app_assoc.
Qed.
Lemma scan_line : forall U gs es pre last toks, sane U -> valid_source gs -> lexes U gs es ->
  scan_tokens U gs = Done (Ok toks) ->
  source_lines es = pre ++ [last] -> open_levels (source_lines es) = nil ->
  content (body last) <> nil -> continuing (body last) = false -> is_comment_line (content (body last)) = false ->
  exists j e x y, toks = j ++ [e] /\ t_type x = Terminator /\ t_type y = Eof /\
    scan_tokens U (gs ++ [s_nl]) = Done (Ok (j ++ [x; y])).
Proof.
  intros U gs es pre last toks Sn V L H SL OL CN CC CK.
  destruct (scan_ok U gs es Sn V L toks H) as (-> & _ & E).
  assert (L' : lexes U (gs ++ [s_nl]) (es ++ [Newline])) by (apply lexes_line; auto; eapply ok_legal; eauto).
  assert (V' : valid_source (gs ++ [s_nl])).
  { apply Forall_app. split; auto. constructor; auto. left. reflexivity. }
  rewrite (scan_correct U Sn _ _ V' L'). unfold scan_spec.
  unfold source_lines in SL. destruct (split_last (place nil es) nil) as (pre' & last' & SL').
  rewrite SL' in SL. apply app_inj_tail in SL. destruct SL as [-> <-]. cbn [body] in *.
  rewrite place_app. cbn [place]. rewrite (split_line _ _ _ _ _ SL').
  rewrite OL in E. unfold source_lines in E at 1. rewrite SL' in E.
  rewrite (layout_line _ _ _ _ _ _ _ _ _ E).
  unfold scanned_tokens. rewrite OL. unfold closing. cbn [List.length repeat app].
  do 4 eexists. split; [reflexivity|].
  split; [|split]; [| |rewrite <- app_assoc].
  3:{ unfold terminator. cbn [ending body]. destruct (content last') as [|c0 c] eqn:CQ; [congruence|].
      rewrite CC, CK. cbn [orb app]. reflexivity. }
  all: reflexivity.
Qed.
(** What the REPL reads, a file may contain: as it is, or with a newline after it; provided no indented block is
    open at the end and the last line has something to end. *)
Lemma repl_line_file : forall U oc gs es pre last l, sane U -> valid_source gs -> lexes U gs es ->
  source_lines es = pre ++ [last] -> open_levels (source_lines es) = nil ->
  content (body last) <> nil -> continuing (body last) = false -> is_comment_line (content (body last)) = false ->
  parse_repl_line U oc gs = Done (Ok l) ->
  parse U oc gs = Done (Ok l) \/ parse U oc (gs ++ [s_nl]) = Done (Ok l).
Proof.
  intros U oc gs es pre last l Sn V L SL OL CN CC CK H.
  destruct (parse_ok_scans U Sn oc gs V true l H) as (toks & E & P & OK).
  destruct (scan_line U gs es pre last toks Sn V L E SL OL CN CC CK) as (j & e & x & y & -> & X & Y & E').
  unfold parse, parse_with. rewrite E, E'. cbn [obind].
  destruct (repl_tokens j e oc l OK P) as [R|R]; auto.
Qed.
Lemma file_repl : forall U oc gs l, sane U -> valid_source gs ->
  parse U oc gs = Done (Ok l) -> parse_repl_line U oc gs = Done (Ok l).
Proof.
  intros U oc gs l Sn V H. destruct (parse_ok_scans U Sn oc gs V false l H) as (toks & E & P & OK).
  unfold parse_repl_line, parse_with. rewrite E. cbn [obind]. now apply lenient.
Qed.
