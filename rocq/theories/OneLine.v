(** A line end is the last thing on a line: what the grammar makes of such tokens. *)
From Verif Require Import Base F64 Token Ast SpecTree SpecGrammar SpecPrint SpecOneLine ParseFirst SizeTree FlatExact Prefix.

Lemma idles_app l l' : idles (l ++ l') <-> idles l /\ idles l'.
Proof. apply Forall_app. Qed.
Lemma idles_cons p l : idles (p :: l) <-> idle p /\ idles l.
Proof. apply Forall_cons_iff. Qed.
Lemma idles_nil : idles nil <-> True.
Proof. split; auto. constructor. Qed.
Lemma idle_last : forall st, idles (parts st) -> line_last st.
Proof.
  fix IH 1. intros [b|?|c|?|e|[x f]|c a [o|]|e|e ?|x s e l|c b|c b i]; cbn [parts line_last];
    rewrite ?idles_cons, ?idles_app, ?idles_app; intros H; auto; try tauto.
  - assert (X : idles (parts (SBlock b))) by (cbn [parts]; rewrite idles_cons; tauto).
    destruct b as [|d [|w [|]]]; try exact X; destruct d; try exact X.
    2:{ destruct w; exact X. }
    cbn [flat_map parts] in H. rewrite !idles_app, !idles_cons, ?idles_app in H.
    assert (Hw := IH w). destruct w; try exact X; (split; [tauto|apply Hw; tauto]).
  - assert (Hb := IH o). tauto.
  - assert (Hb := IH a). tauto.
  - assert (Hb := IH b). tauto.
  - assert (Hb := IH b). tauto.
Qed.

(** Something other than outdents and the end is there. *)
Definition live (i : list token) : Prop := exists t, In t i /\ ~ In (t_type t) [Outdent; Eof].
(** A line end is there. *)
Definition has_end (i : list token) : Prop := exists t, In t i /\ t_type t = Terminator.
(** After a line end there is nothing more, and an indent comes first. *)
Definition single (i : list token) : Prop :=
  forall x t y, i = x ++ t :: y ->
  (In (t_type t) [Terminator; Eof] -> ~ live y) /\ (t_type t = Indent -> x = nil).

Lemma live_suffix i r : suffix i r -> live r -> live i.
Proof. intros [p ->] (t & I & H). exists t. split; auto. apply in_or_app. auto. Qed.
Lemma live_cons t i : ~ In (t_type t) [Outdent; Eof] -> live (t :: i).
Proof. intros H. exists t. split; auto. now left. Qed.
Lemma single_suffix i r : suffix i r -> single i -> single r.
Proof.
  intros [p ->] S x t y ->. destruct (S (p ++ x) t y) as [A B]; [now rewrite app_assoc|].
  split; auto. intros E. apply B in E. now apply app_eq_nil in E.
Qed.
Lemma single_end t i : single (t :: i) -> t_type t = Terminator -> ~ live i.
Proof. intros S E. apply (S nil t i eq_refl). rewrite E. now left. Qed.
Lemma single_eof t i : single (t :: i) -> t_type t = Eof -> ~ live i.
Proof. intros S E. apply (S nil t i eq_refl). rewrite E. right. now left. Qed.
Lemma single_inside t i : single (t :: i) -> ~ starts [Indent] i.
Proof.
  intros S H. destruct i as [|u i]; [contradiction|]. destruct H as [H|[]].
  destruct (S [t] u i eq_refl) as [_ B]. now specialize (B (eq_sym H)).
Qed.
Lemma has_end_live i : has_end i -> live i.
Proof. intros (t & I & E). exists t. split; auto. rewrite E. now intros [|[|[]]]. Qed.
Lemma keeps_end i r : suffix i r -> single i -> live r -> has_end i -> has_end r.
Proof.
  intros [p ->] S L (t & I & E). apply in_app_or in I. destruct I as [I|I]; [|now exists t].
  apply in_split in I. destruct I as (x & y & ->). exfalso.
  destruct (S x t (y ++ r)) as [A _]; [now rewrite <- app_assoc|]. apply A; [rewrite E; now left|].
  apply (live_suffix _ r); auto. now exists y.
Qed.
(** The last token used up is a closing brace. *)
Definition closed_by (i r : list token) : Prop := exists t, suffix i (t :: r) /\ t_type t = RightBrace.
Lemma closed_live i r : closed_by i r -> live i.
Proof. intros (t & S & E). apply (live_suffix _ _ S). apply live_cons. rewrite E. now intros [|[|[]]]. Qed.
Lemma closed_end i r : closed_by i r -> single i -> has_end i -> has_end r.
Proof.
  intros (t & S & E) Si H. apply (keeps_end _ (t :: r)) in H; auto.
  - destruct H as (u & [<-|I] & Eu); [congruence|]. now exists u.
  - apply live_cons. rewrite E. now intros [|[|[]]].
Qed.
Lemma closed_suffix i j r : suffix i j -> closed_by j r -> closed_by i r.
Proof. intros S (t & S' & E). exists t. split; auto. eapply suffix_trans; eauto. Qed.
Lemma opens_single k i r : opens k i r -> single i -> k = RightBrace.
Proof.
  intros O S. inversion O; subst; auto. exfalso. apply (single_end _ _ S H). apply live_cons. rewrite H0. now intros [|[|[]]].
Qed.
Lemma then_live k i r : token_then k i r -> ~ In k [Outdent; Eof] -> live i.
Proof. intros (t & -> & E) H. apply live_cons. now rewrite E. Qed.

Lemma token_end k i j r : suffix i j -> token_then k j r -> ~ In k [Outdent; Eof; Terminator] -> single i ->
  has_end i -> has_end r.
Proof.
  intros S (t & -> & E) N Si H. apply (keeps_end _ (t :: r)) in H; auto.
  - destruct H as (u & [<-|I] & Eu); [|now exists u]. exfalso. apply N. cbn. intuition congruence.
  - apply live_cons. rewrite E. cbn in *. tauto.
Qed.
Lemma end_dead i r : token_then Terminator i r -> single i -> ~ live r.
Proof. intros (t & -> & E) S. now apply (single_end t). Qed.
Lemma eof_dead i : starts [Eof] i -> single i -> ~ live i.
Proof.
  destruct i as [|t i]; [contradiction|]. intros [E|[]] S (u & [<-|I] & H).
  - apply H. rewrite <- E. right. now left.
  - apply (single_eof _ _ S); auto. now exists u.
Qed.
Definition before_idle (N : sym) : Prop :=
  match N with BinaryTail _ e | CallTail e => idles (expr_parts e) | _ => True end.
Definition said (i : list token) (st : stmt) (r : list token) : Prop :=
  line_last st /\ (live r -> idles (parts st) /\ braced_var st) /\ (has_end i -> ~ has_end r -> line_ended st = true).
Definition outcome_of (N : sym) (i : list token) (v : val) (r : list token) : Prop :=
  match N, v with
  | (Expression | Target | Binary _ | Unary | Call | Primary), VE e =>
    idles (vparts v) /\ (starts [LeftBrace] i -> brace_first e = true)
  | (BinaryTail _ a | CallTail a), VE e => idles (vparts v) /\ (brace_first a = true -> brace_first e = true)
  | Statements k, VSs l => k = RightBrace -> idles (vparts v) /\ Forall braced_var l /\ closed_by i r
  | Methods k, _ => k = RightBrace -> idles (vparts v) /\ closed_by i r
  | Block, VSs l => idles (vparts v) /\ Forall braced_var l /\ closed_by i r
  | Function _, _ => idles (vparts v) /\ closed_by i r
  | ForInit, VO o =>
    live r -> match o with None => True | Some (SVar _ _ e _) => idles (expr_parts e) | _ => False end
  | VarDeclaration f, VS st =>
    match st with
    | SVar _ _ e _ => idles (expr_parts e) /\ (f = false -> live r -> brace_first e = true)
    | _ => False
    end
  | (Declaration | Statement | ExpressionStatement | Branch), VS st => said i st r
  | Program, VSs l =>
    sayable l /\ (has_end i -> exists l' st, l = l' ++ [st] /\ line_ended st = true)
  | _, _ => idles (vparts v)
  end.

Lemma operator_idle n k f a l b : operator n k = Some f -> brace_first (f a l b) = brace_first a /\
  (idles (expr_parts (f a l b)) <-> idles (expr_parts a) /\ idles (expr_parts b)).
Proof.
  do 6 (destruct n as [|n]; [destruct k; intros E; try discriminate E; injection E as <-; (split; [reflexivity|]);
    cbn [expr_parts]; rewrite idles_cons, idles_app; cbn [idle]; tauto|]).
  discriminate.
Qed.
Lemma assigned_idle a b l x : assigned a b l = Some x -> (brace_first a = true -> brace_first x = true) /\
  (idles (expr_parts a) -> idles (expr_parts b) -> idles (expr_parts x)).
Proof.
  destruct a; cbn [assigned]; try discriminate.
  - intros E. injection E as <-. split; [auto|]. cbn [expr_parts]. rewrite !idles_cons, !idles_app; cbn [idle]; tauto.
  - intros E. injection E as <-. split; [auto|]. cbn [expr_parts]. rewrite !idles_cons, !idles_app; cbn [idle]; tauto.
  - destruct (String.eqb _ _); [discriminate|]. intros E. injection E as <-. split; [discriminate|]. cbn [expr_parts].
    rewrite !idles_cons; cbn [idle]; tauto.
Qed.
Lemma with_kind_idle k f : idles (fun_parts (with_kind k f)) <-> idles (fun_parts f).
Proof. destruct f; cbn [with_kind fun_parts]; rewrite !idles_cons; cbn [idle]; tauto. Qed.
Lemma block_idle l : Forall braced_var l -> idle (PStmt (SBlock l)).
Proof. intros F. cbn [idle]. destruct l as [|[] [|[] [|]]]; auto. Qed.
Lemma only_suffix i r : suffix i r -> i = r \/ exists t j, i = t :: j /\ suffix j r.
Proof. intros [[|t p] ->]; [now left|]. right. exists t, (p ++ r). split; auto. now exists p. Qed.

Lemma said_class i d r : idles (class_parts d) -> closed_by i r -> single i -> said i (SClass d) r.
Proof.
  intros H C S. assert (X : idles (parts (SClass d))) by (cbn [parts]; rewrite idles_cons; split; [exact I|auto]).
  split; [exact X|]. split; [split; [exact X|exact I]|]. intros A B. destruct B. eapply closed_end; eauto.
Qed.
Lemma said_fun i x f r : idles (fun_parts f) -> closed_by i r -> single i -> said i (SFun (NamedFun x f)) r.
Proof.
  intros H C S. assert (X : idles (parts (SFun (NamedFun x f)))) by (cbn [parts]; rewrite idles_cons; split; [exact I|auto]).
  split; [exact X|]. split; [split; [exact X|exact I]|]. intros A B. destruct B. eapply closed_end; eauto.
Qed.
Lemma said_block i l r : idles (flat_map parts l) -> Forall braced_var l -> closed_by i r -> single i -> said i (SBlock l) r.
Proof.
  intros H F C S. assert (X : idles (parts (SBlock l))) by (cbn [parts]; rewrite idles_cons; split; [now apply block_idle|auto]).
  split; [now apply idle_last|]. split; [split; [exact X|exact I]|]. intros A B. destruct B. eapply closed_end; eauto.
Qed.
Lemma said_while i c b inc r : idles (expr_parts c) ->
  idles (match inc with Some e => expr_parts e | None => nil end) -> said i b r ->
  said i (match inc with None => SWhile c b | Some e => SWhileIncrement c b e end) r.
Proof.
  intros Hc He (A & B & C). destruct inc as [e|]; (split; [cbn [line_last]; auto|]);
    (split; [intros L; split; [|exact I]; cbn [parts]; rewrite idles_cons, ?idles_app; cbn [idle]; apply B in L; tauto|exact C]).
Qed.
Lemma said_later i j b r : (has_end i -> has_end j) -> said j b r -> said i b r.
Proof. intros H (A & B & C). repeat split; auto; now apply B. Qed.

Section Line.
Variable trailing : bool.

Lemma one_line : forall b N i v r, derives trailing b N i v r -> single i -> before_idle N -> outcome_of N i v r.
Proof.
  induction 1; intros F B; cbn [before_idle] in *;
    repeat match goal with
    | H : derives trailing _ ?N ?i _ ?r |- _ =>
      lazymatch goal with _ : suffix i r |- _ => fail | _ => idtac end;
      let S := fresh "Sf" in pose proof (derives_suffix _ _ _ _ _ _ H) as S
    end;
    repeat match goal with
    | IH : single ?i -> _, F : single ?i |- _ => specialize (IH F)
    | IH : single ?j -> _, F : single ?i |- _ =>
      let F' := fresh "F" in assert (F' : single j) by (apply (single_suffix i j); [suf|exact F]); specialize (IH F')
    end;
    repeat match goal with IH : True -> _ |- _ => specialize (IH I) end;
    cbn [outcome_of vparts] in *.
  all: repeat match goal with H : _ /\ _ |- _ => destruct H end.
  all: cbn [parts expr_parts class_parts fun_parts flat_map entry_of named_of idle brace_first] in *;
    rewrite ?idles_cons, ?idles_app, ?idles_nil, ?with_kind_idle, ?app_nil_r in *;
    try tauto.
  all: try match goal with |- (_ /\ _) /\ (starts [LeftBrace] ?i -> _) =>
    (split; [split; [exact I|auto]|]); intros Q; exfalso;
    repeat match goal with
    | H : token_then _ i _ |- _ => destruct H as (? & -> & ?)
    | H : paren_then i _ |- _ => destruct H as [(? & -> & ?)|(? & -> & ?)]
    end; destruct Q as [Q|[]]; rewrite <- Q in *; (discriminate || (cbn in *; intuition discriminate)) end.
  - (* assignment *) destruct (assigned_idle _ _ _ _ H2) as [A1 A2]. split; auto.
  - (* indented *) split; auto. intros Q. destruct H as (t & -> & E). destruct Q as [Q|[]]. congruence.
  - (* operator *)
    destruct (operator_idle _ _ _ e (tloc t) e2 H) as [A1 A2]. destruct IHderives2 as [O T]; [tauto|]. split; auto.
    rewrite A1 in T. auto.
  - apply IHderives. split; [exact I|auto].
  - apply IHderives. split; [exact I|]. split; [auto|constructor].
  - destruct IHderives2 as [O T]; [split; [exact I|split; auto]|]. split; auto.
  - destruct IHderives2 as [O T]; [split; [exact I|split; auto]|]. split; auto.
  - destruct IHderives2 as [O T]; [split; [exact I|split; auto]|]. split; auto.
  - (* functions *) split; [split; auto|]. apply (closed_suffix _ i2); auto. suf.
  - split; [split; [auto|auto]|]. apply (closed_suffix _ i3); auto. suf.
  - (* block *) assert (k = RightBrace) by (eapply opens_single; eauto). destruct IHderives as (A1 & A2 & A3); auto.
    split; auto. split; auto. apply (closed_suffix _ i1); auto. suf.
  - intros ->. split; auto. split; auto. destruct H as (t & -> & E). exists t. split; auto. apply suffix_refl.
  - intros ->. destruct IHderives2 as (A1 & A2 & A3); auto. destruct IHderives1 as (B1 & B2 & _).
    destruct B2; [now apply closed_live in A3|]. split; auto. split; auto. now apply (closed_suffix _ r1).
  - (* classes *) assert (k = RightBrace) by (eapply (opens_single k i2); eauto; eapply (single_suffix i); eauto; suf).
    destruct IHderives as (A1 & A2); auto. apply said_class; auto.
    + cbn [class_parts]. rewrite idles_cons. split; [exact I|exact A1].
    + apply (closed_suffix _ i3); auto. suf.
  - assert (k = RightBrace) by (eapply (opens_single k i4); eauto; eapply (single_suffix i); eauto; suf).
    destruct IHderives as (A1 & A2); auto. apply said_class; auto.
    + cbn [class_parts expr_parts app]. rewrite !idles_cons. split; [exact I|]. split; [exact I|exact A1].
    + apply (closed_suffix _ i5); auto. suf.
  - intros ->. split; auto. destruct H as (t & -> & E). exists t. split; auto. apply suffix_refl.
  - intros ->. destruct IHderives2 as (A1 & A2); auto. split; auto. apply (closed_suffix _ r1); auto. suf.
  - intros ->. destruct IHderives2 as (A1 & A2); auto. split; auto. apply (closed_suffix _ r1); auto. suf.
  - (* functions *) apply said_fun; auto. apply (closed_suffix _ i2); auto. suf.
  - (* variables *) destruct st; try contradiction. destruct IHderives as [A1 A2]. split; [exact A1|].
    split; [|auto]. intros L. split; [|now apply A2]. cbn [parts]. rewrite idles_cons. split; [exact I|auto].
  - split; [split; exact I|]. intros -> L. exfalso. apply (end_dead i1 r); auto. apply (single_suffix i); auto. suf.
  - split; auto. intros -> L. destruct H3 as [T|(T & _ & ->)].
    + exfalso. apply (end_dead r1 r); auto. eapply (single_suffix i); auto. suf.
    + apply H5. assert (~ starts [Indent] i3).
      { destruct H as (-> & _). destruct H0 as (t & -> & E0). inversion H1; subst.
        - apply (single_inside t0). apply (single_suffix (n :: t :: t0 :: i3)); auto. suf.
        - apply (single_inside t). apply (single_suffix (n :: t :: i3)); auto. suf. }
      destruct i3 as [|u i3]; [contradiction|]. cbn in *. tauto.
  - (* statements *) split; [exact H1|]. split; [intros L|reflexivity]. exfalso. apply (end_dead r1 r); auto.
    apply (single_suffix i); auto.
  - split; [exact H2|]. split; [intros L|reflexivity]. exfalso. apply (eof_dead r); auto.
    apply (single_suffix i); auto.
  - split; [exact I|]. split; [intros L|reflexivity]. exfalso. apply (end_dead i r); auto.
    apply (single_suffix (t :: i)); auto. suf.
  - split; [exact I|]. split; [intros L|reflexivity]. exfalso. apply (end_dead i r); auto.
    apply (single_suffix (t :: i)); auto. suf.
  - split; [assumption|]. split; [intros L|reflexivity]. exfalso. apply (end_dead r1 r); auto.
    apply (single_suffix i); auto. suf.
  - split; [assumption|]. split; [intros L|reflexivity]. exfalso. apply (end_dead r1 r); auto.
    apply (single_suffix (t :: i)); auto. suf.
  - split; [cbn [line_last expr_parts]; rewrite idles_cons; split; [exact I|constructor]|].
    split; [intros L|reflexivity]. exfalso. apply (end_dead i r); auto.
    apply (single_suffix (t :: i)); auto. suf.
  - (* blocks *) destruct IHderives as (A1 & A2 & A3); auto. apply said_block; auto. apply (closed_suffix _ i1); auto. suf.
  - apply said_block; auto.
  - (* if *) destruct IHderives2 as (A1 & A2 & A3). split; [split; auto|]. split.
    + intros L. split; [|exact I]. cbn [parts]. rewrite idles_cons, !idles_app. apply A2 in L. split; [exact I|].
      split; auto. split; [tauto|constructor].
    + intros Q. apply A3. eapply token_end; [|exact H2| |exact F|exact Q]; [suf|]. cbn. intuition discriminate.
  - destruct IHderives2 as (A1 & A2 & A3). destruct IHderives3 as (B1 & B2 & B3).
    assert (L5 : live i5) by (eapply then_live; [exact H4|cbn; intuition discriminate]).
    destruct (A2 L5) as [A4 A5]. split; [split; auto|]. split.
    + intros L. split; [|exact I]. cbn [parts]. rewrite idles_cons, !idles_app. apply B2 in L. split; [exact I|].
      split; auto. split; tauto.
    + intros Q. apply B3. eapply token_end; [|exact H4| |exact F|exact Q]; [suf|]. cbn. intuition discriminate.
  - apply (said_while i c st None); auto; [constructor|]. eapply said_later; [|exact IHderives2].
    intros Q. eapply token_end; [|exact H2| |exact F|exact Q]; [suf|]. cbn. intuition discriminate.
  - (* for *) intros _. destruct st; try contradiction. tauto.
  - destruct IHderives as (_ & A & _). intros L. inversion H; subst.
    + destruct (A L) as [X _]. cbn [parts] in X. rewrite idles_cons in X. destruct X as [[] _].
    + destruct (A L) as [X _]. cbn [parts] in X. rewrite idles_cons in X. destruct X as [[] _].
  - assert (L3 : live i3).
    { apply (live_suffix i3 i4); auto. eapply then_live; [exact H3|]. cbn. intuition discriminate. }
    specialize (IHderives1 L3).
    assert (W : said i (match inc with None => SWhile c st | Some e => SWhileIncrement c st e end) r).
    { apply said_while; auto. eapply said_later; [|exact IHderives4].
      intros Q. eapply token_end; [|exact H5| |exact F|exact Q]; [suf|]. cbn. intuition discriminate. }
    destruct init as [[]|]; try contradiction; [|exact W]. cbn [for_tree]. destruct W as (A1 & A2 & A3). split; [|split].
    + cbn [line_last]. destruct inc; split; auto.
    + intros L. split; [|exact I]. cbn [parts flat_map]. rewrite idles_cons, app_nil_r, !idles_app, idles_cons. apply A2 in L.
      split; [destruct inc; exact I|]. split; [split; [exact I|auto]|tauto].
    + intros Q1 Q2. cbn [line_ended]. specialize (A3 Q1 Q2). now destruct inc.
  - (* programs *) split; [left; split; constructor|]. intros Q. exfalso. apply (eof_dead i); auto. now apply has_end_live.
  - destruct IHderives1 as (A1 & A2 & A3). rename H1 into B1. rename H2 into B2.
    destruct l as [|st' l].
    + assert (~ has_end r1). { intros Q. apply (eof_dead r1); [|auto|now apply has_end_live]. now inversion H0. }
      split; [right; exists nil, st; repeat split; auto; constructor|]. intros Q. exists nil, st. auto.
    + assert (L : live r1).
      { assert (X : exists r2, derives trailing b Declaration r1 (VS st') r2) by (inversion H0; subst; eauto).
        destruct X as [r2 X]. destruct (statement_start _ _ _ _ _ X) as [NS _].
        destruct r1 as [|u r1]; [apply statement_moves in X; [cbn in X; lia|exact I]|].
        apply live_cons. cbn in *. tauto. }
      destruct (A2 L) as [A4 A5]. split.
      * destruct B1 as [[B3 B4]|(l' & st'' & E & B3 & B4 & B5)].
        -- left. split; [|now constructor]. unfold program_parts in *. cbn [flat_map] in *. apply idles_app. auto.
        -- right. exists (st :: l'), st''. rewrite E. split; auto. split; [|split; auto].
           unfold program_parts. cbn [flat_map]. apply idles_app. auto.
      * intros Q. destruct B2 as (l' & st'' & -> & E). { eapply keeps_end; eauto. }
        exists (st :: l'), st''. auto.
Qed.
End Line.
