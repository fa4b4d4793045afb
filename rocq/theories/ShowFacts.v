(** Both printers are readable: the text determines the document. *)
From Coq Require Import DecimalString DecimalN DecimalFacts.
From Verif Require Import Base F64 Token Ast StrFacts Show.
Local Open Scope string_scope.

(** ** Strings *)
Lemma app_assoc_s : forall a b c : string, (a ++ b) ++ c = a ++ (b ++ c).
Proof. induction a; intros; cbn; congruence. Qed.
Lemma app_nil_s : forall a : string, a ++ "" = a.
Proof. induction a; cbn; congruence. Qed.
Lemma app_cancel : forall a b c : string, a ++ b = a ++ c -> b = c.
Proof. induction a; cbn; intros b c H; [exact H|]. injection H. auto. Qed.

Definition c_quote : ascii := ascii_of_nat 34.
Definition c_nl : ascii := ascii_of_nat 10.
(** Characters of words, field names and brackets. *)
Definition plain_char (c : ascii) : bool :=
  negb (Ascii.eqb c ":" || Ascii.eqb c "," || Ascii.eqb c c_nl || Ascii.eqb c c_quote).
Fixpoint plain (s : string) : bool :=
  match s with "" => true | String c r => plain_char c && plain r end.

Lemma plain_split : forall p q c d r r', plain p = true -> plain q = true ->
  plain_char c = false -> plain_char d = false ->
  p ++ String c r = q ++ String d r' -> p = q /\ c = d /\ r = r'.
Proof.
  induction p as [|x p IH]; destruct q as [|y q]; cbn; intros c d r r' Pp Pq Hc Hd E.
  - injection E. auto.
  - injection E as -> _. apply andb_prop in Pq. destruct Pq. congruence.
  - injection E as -> _. apply andb_prop in Pp. destruct Pp. congruence.
  - injection E as -> E. apply andb_prop in Pp, Pq. destruct Pp, Pq.
    destruct (IH q c d r r') as (-> & -> & ->); auto.
Qed.
Lemma plain_quote : forall p c r r', plain p = true -> c <> c_quote ->
  p ++ String c r = String c_quote r' -> False.
Proof.
  destruct p as [|x p]; cbn; intros c r r' P N E.
  - injection E as -> _. auto.
  - injection E as -> _. apply andb_prop in P. destruct P as [P _]. discriminate P.
Qed.
Lemma plain_app : forall a b, plain (a ++ b) = plain a && plain b.
Proof. induction a; cbn; intros; [reflexivity|]. rewrite IHa. apply andb_assoc. Qed.

(** ** Decimal numerals *)
Lemma to_uint_nonnil : forall n, N.to_uint n <> Decimal.Nil.
Proof.
  intros n H. pose proof (Unsigned.to_of (N.to_uint n)) as E.
  rewrite Unsigned.of_to, H in E. discriminate E.
Qed.
Lemma decimal_inj : forall m n, decimal m = decimal n -> m = n.
Proof.
  intros m n H. unfold decimal in H.
  assert (E : NilZero.uint_of_string (NilZero.string_of_uint (N.to_uint m)) =
              NilZero.uint_of_string (NilZero.string_of_uint (N.to_uint n))) by congruence.
  rewrite !NilZero.usu in E by apply to_uint_nonnil.
  injection E as E. apply Unsigned.to_uint_inj. exact E.
Qed.
Lemma uint_plain : forall d, plain (NilEmpty.string_of_uint d) = true.
Proof. induction d; cbn; auto. Qed.
Lemma decimal_plain : forall n, plain (decimal n) = true.
Proof.
  intros n. unfold decimal, NilZero.string_of_uint.
  destruct (N.to_uint n); try apply uint_plain; reflexivity.
Qed.

(** ** Induction over documents and JavaScript values *)
Section DocInd.
Variable Q : doc -> Prop.
Hypothesis HWord : forall w, Q (Word w).
Hypothesis HText : forall s, Q (Text s).
Hypothesis HNode : forall o items c, Forall (fun i => Q (snd i)) items -> Q (Node o items c).
Fixpoint doc_tree (d : doc) : Q d :=
  match d with
  | Word w => HWord w
  | Text s => HText s
  | Node o items c =>
    HNode o items c ((fix go l : Forall (fun i => Q (snd i)) l :=
                        match l with
                        | nil => Forall_nil _
                        | x :: r => Forall_cons x (doc_tree (snd x)) (go r)
                        end) items)
  end.
End DocInd.

(** Documents that can be read back. *)
Definition label_ok (l : label) : bool :=
  match l with Field n => plain n | _ => true end.
Definition closing_ok (c : string) : bool :=
  match c with
  | "" => false
  | String x r => negb (Ascii.eqb x " ") && plain (String x r)
  end.
Fixpoint readable (d : doc) : bool :=
  match d with
  | Word w => plain w
  | Text _ => true
  | Node o items c =>
    plain o && closing_ok c &&
    forallb (fun i => match i with (l, x) => label_ok l && readable x end) items
  end.

(** Quoting that can be read back, whatever follows. *)
Definition prefix_code (f : string -> string) : Prop :=
  forall s t r r', f s ++ r = f t ++ r' -> s = t /\ r = r'.
Definition quoting (f : string -> string) : Prop :=
  prefix_code f /\ forall s, exists r, f s = String c_quote r.

Ltac norm := cbn [String.append] in *;
  repeat (match goal with
          | H : context [(?a ++ ?b) ++ ?c] |- _ => rewrite (app_assoc_s a b c) in H
          | |- context [(?a ++ ?b) ++ ?c] => rewrite (app_assoc_s a b c)
          end; cbn [String.append] in * ).

Section DebugCode.
Variable F : formats.
Hypothesis FQ : quoting (f_str F).

Definition sep (c : ascii) : Prop := c = ","%char \/ c = c_nl.
Lemma sep_plain : forall c, sep c -> plain_char c = false.
Proof. intros c [->| ->]; reflexivity. Qed.
Lemma sep_quote : forall c, sep c -> c <> c_quote.
Proof. intros c [->| ->]; discriminate. Qed.

(** How the text of a document begins. *)
Lemma debug_head : forall d pad r, readable d = true ->
  (exists s, d = Text s) \/
  exists p c r', plain p = true /\ sep c /\ debug F pad d ++ String "," r = p ++ String c r'.
Proof.
  intros [w|s|o items c] pad r R; [right|left|right]; cbn in R.
  - exists w, ","%char, r. unfold sep. auto.
  - eauto.
  - apply andb_prop in R as [R _]. apply andb_prop in R as [R _].
    exists o, c_nl. cbn [debug]. unfold s_nl. norm. eexists. unfold sep. auto.
Qed.

Lemma label_code : forall l l' x x' pad r r', label_ok l = true -> label_ok l' = true ->
  readable x = true -> readable x' = true ->
  show_label (f_str F) l ++ debug F pad x ++ String "," r =
  show_label (f_str F) l' ++ debug F pad x' ++ String "," r' ->
  l = l' /\ debug F pad x ++ String "," r = debug F pad x' ++ String "," r'.
Proof.
  assert (None_Field : forall n x x' pad r r', plain n = true -> readable x = true ->
    debug F pad x ++ String "," r = n ++ String ":" (String " " (debug F pad x' ++ String "," r')) -> False).
  { intros n x x' pad r r' P R E. destruct (debug_head x pad r R) as [[s ->]|(p & c & q & Pp & Hs & H)].
    - cbn in E. destruct (proj2 FQ s) as [u Hu]. rewrite Hu in E. symmetry in E. cbn in E.
      revert E. apply plain_quote; auto; discriminate.
    - rewrite H in E. apply plain_split in E; auto using sep_plain.
      destruct E as (_ & -> & _). destruct Hs; discriminate. }
  assert (None_Key : forall k x x' pad r r', readable x = true ->
    debug F pad x ++ String "," r = f_str F k ++ String ":" (String " " (debug F pad x' ++ String "," r')) -> False).
  { intros k x x' pad r r' R E. destruct (debug_head x pad r R) as [[s ->]|(p & c & q & Pp & Hs & H)].
    - cbn in E. apply (proj1 FQ) in E. destruct E. discriminate.
    - rewrite H in E. destruct (proj2 FQ k) as [u Hu]. rewrite Hu in E. cbn in E.
      revert E. apply plain_quote; auto using sep_quote. }
  assert (Field_Key : forall n k x r, plain n = true ->
    n ++ String ":" x = f_str F k ++ r -> False).
  { intros n k x r P E. destruct (proj2 FQ k) as [u Hu]. rewrite Hu in E. cbn in E.
    revert E. apply plain_quote; auto; discriminate. }
  intros [|n|k] [|n'|k'] x x' pad r r' L L' R R' E; cbn [show_label label_ok] in *; norm; auto.
  - exfalso. exact (None_Field _ _ _ _ _ _ L' R E).
  - exfalso. exact (None_Key _ _ _ _ _ _ R E).
  - exfalso. exact (None_Field _ _ _ _ _ _ L R' (eq_sym E)).
  - apply plain_split in E; auto. destruct E as (-> & _ & E). injection E. auto.
  - exfalso. exact (Field_Key _ _ _ _ L E).
  - exfalso. exact (None_Key _ _ _ _ _ _ R' (eq_sym E)).
  - exfalso. exact (Field_Key _ _ _ _ L' (eq_sym E)).
  - apply (proj1 FQ) in E. destruct E as [-> E]. injection E. auto.
Qed.

Lemma closing_split : forall c c' r r', closing_ok c = true -> closing_ok c' = true ->
  c ++ String "," r = c' ++ String "," r' -> c = c' /\ r = r'.
Proof.
  intros [|x c] [|y c'] r r' H H' E; try discriminate. cbn [closing_ok] in *.
  apply andb_prop in H as [_ H], H' as [_ H']. apply plain_split in E; auto. intuition.
Qed.
Lemma closing_space : forall c r r', closing_ok c = true -> c ++ r = String " " r' -> False.
Proof.
  intros [|x c] r r' H E; [discriminate|]. cbn in *. injection E as -> _. discriminate.
Qed.

Lemma debug_code : forall d d' pad r r', readable d = true -> readable d' = true ->
  debug F pad d ++ String "," r = debug F pad d' ++ String "," r' -> d = d' /\ r = r'.
Proof.
  induction d as [w|s|o items c IH] using doc_tree; intros d' pad r r' R R' E.
  - destruct d' as [w'|s'|o' items' c']; cbn [debug readable] in *.
    + apply plain_split in E; auto. destruct E as (-> & _ & ->). auto.
    + exfalso. destruct (proj2 FQ s') as [u Hu]. rewrite Hu in E.
      revert E. apply plain_quote; auto; discriminate.
    + exfalso. unfold s_nl in E. norm. apply andb_prop in R' as [R' _]. apply andb_prop in R' as [R' _].
      apply plain_split in E; auto. destruct E as (_ & E & _). discriminate.
  - destruct d' as [w'|s'|o' items' c']; cbn [debug readable] in *.
    + exfalso. destruct (proj2 FQ s) as [u Hu]. rewrite Hu in E. symmetry in E.
      revert E. apply plain_quote; auto; discriminate.
    + apply (proj1 FQ) in E. destruct E as [-> E]. injection E. auto.
    + exfalso. destruct (proj2 FQ s) as [u Hu]. rewrite Hu in E. symmetry in E. unfold s_nl in E. norm.
      apply andb_prop in R' as [R' _]. apply andb_prop in R' as [R' _].
      revert E. apply plain_quote; auto; discriminate.
  - destruct d' as [w'|s'|o' items' c'].
    + exfalso. cbn [debug readable] in *. unfold s_nl in E. norm. apply andb_prop in R as [R _]. apply andb_prop in R as [R _].
      apply plain_split in E; auto. destruct E as (_ & E & _). discriminate.
    + exfalso. cbn [debug readable] in *. destruct (proj2 FQ s') as [u Hu]. rewrite Hu in E. unfold s_nl in E. norm.
      apply andb_prop in R as [R _]. apply andb_prop in R as [R _].
      revert E. apply plain_quote; auto; discriminate.
    + cbn [readable] in R, R'. apply andb_prop in R as [R Ri], R' as [R' Ri'].
      apply andb_prop in R as [Ro Rc], R' as [Ro' Rc'].
      cbn [debug] in E. unfold s_nl in E. norm.
      apply plain_split in E; auto. destruct E as (-> & _ & E).
      assert (X : items = items' /\ c = c' /\ r = r').
      { clear Ro Ro'. revert items' Ri' E. induction items as [|[l x] items IHi]; intros items' Ri' E.
        - destruct items' as [|[l' x'] items']; cbn [map cat] in E; norm.
          + apply app_cancel in E. apply closing_split in E; auto.
          + exfalso. apply app_cancel in E. norm. revert E. apply closing_space; auto.
        - inversion IH; subst. cbn [forallb] in Ri. apply andb_prop in Ri as [Rx Ri]. apply andb_prop in Rx as [Rl Rx].
          destruct items' as [|[l' x'] items']; cbn [map cat] in E; norm.
          + exfalso. symmetry in E. apply app_cancel in E. norm. revert E. apply closing_space; auto.
          + cbn [forallb] in Ri'. apply andb_prop in Ri' as [Rx' Ri']. apply andb_prop in Rx' as [Rl' Rx'].
            apply app_cancel in E. norm. injection E as E.
            apply label_code in E; auto. destruct E as [-> E].
            cbn [snd] in *. match goal with H : forall d' : doc, _ |- _ => apply H in E; auto end.
            destruct E as [-> E]. injection E as E. apply IHi in E; auto. destruct E as (-> & -> & ->). auto. }
      destruct X as (-> & -> & ->). auto.
Qed.
Lemma debug_inj : forall d d' pad, readable d = true -> readable d' = true ->
  debug F pad d = debug F pad d' -> d = d'.
Proof.
  intros d d' pad R R' E. apply (debug_code d d' pad "" ""); auto. rewrite E. reflexivity.
Qed.
End DebugCode.

(** ** JSON strings *)
Definition unhex (c : ascii) : N :=
  let n := N_of_ascii c in if (n <? 58)%N then n - 48 else n - 87.
(** Reads one character of a JSON string. *)
Definition unjson (s : string) : option (ascii * string) :=
  match s with
  | "" => None
  | String c r =>
    if Ascii.eqb c c_quote then None
    else if Ascii.eqb c (ascii_of_nat 92) then
      match r with
      | "" => None
      | String x r =>
        if Ascii.eqb x "b" then Some (ascii_of_nat 8, r)
        else if Ascii.eqb x "f" then Some (ascii_of_nat 12, r)
        else if Ascii.eqb x "n" then Some (ascii_of_nat 10, r)
        else if Ascii.eqb x "r" then Some (ascii_of_nat 13, r)
        else if Ascii.eqb x "t" then Some (ascii_of_nat 9, r)
        else if Ascii.eqb x "u" then
          match r with
          | String _ (String _ (String h (String l r))) =>
            Some (ascii_of_N (unhex h * 16 + unhex l), r)
          | _ => None
          end
        else Some (x, r)
      end
    else Some (c, r)
  end.
Lemma unjson_byte : forall c r, unjson (json_byte c ++ r) = Some (c, r).
Proof.
  intros [[] [] [] [] [] [] [] []] r; reflexivity.
Qed.
Lemma json_chars_code : forall s t r r',
  json_chars s ++ String c_quote r = json_chars t ++ String c_quote r' -> s = t /\ r = r'.
Proof.
  assert (Q : forall r, unjson (String c_quote r) = None) by reflexivity.
  induction s as [|c s IH]; destruct t as [|d t]; cbn [json_chars]; intros r r' E.
  - cbn [String.append] in E. injection E. auto.
  - exfalso. apply (f_equal unjson) in E. norm. rewrite unjson_byte, Q in E. discriminate.
  - exfalso. apply (f_equal unjson) in E. norm. rewrite unjson_byte, Q in E. discriminate.
  - norm. pose proof (f_equal unjson E) as E'. rewrite !unjson_byte in E'. injection E' as -> E'.
    apply IH in E'. destruct E' as [-> ->]. auto.
Qed.
Lemma escape_string_quoting : quoting escape_string.
Proof.
  split.
  - intros s t r r' E. unfold escape_string, s_quote in E. norm. injection E as E.
    apply json_chars_code in E. exact E.
  - intros s. unfold escape_string, s_quote. cbn. eexists. reflexivity.
Qed.

Lemma identifier_byte_plain : forall b c, identifier_byte b c = true -> plain_char c = true.
Proof. intros [] [[] [] [] [] [] [] [] []]; reflexivity || discriminate. Qed.
Lemma identifier_plain : forall s, is_identifier s = true -> plain s = true.
Proof.
  assert (R : forall s, identifier_rest s = true -> plain s = true).
  { induction s; cbn; intros H; [reflexivity|]. apply andb_prop in H as [A B].
    apply identifier_byte_plain in A. rewrite A. auto. }
  intros [|c s] H; [discriminate|]. cbn [is_identifier plain] in *. apply andb_prop in H as [A B].
  apply identifier_byte_plain in A. rewrite A. exact (R s B).
Qed.
(** A key is a plain word or quoted. *)
Lemma map_key_cases : forall k,
  (escape_map_key k = k /\ plain k = true) \/ escape_map_key k = escape_string k.
Proof.
  intros k. unfold escape_map_key.
  destruct (is_identifier k) eqn:I; cbn [andb]; [|auto].
  destruct (negb _); auto using identifier_plain.
Qed.

(** ** The layout of the page's printer *)
Fixpoint layout (d : doc) (prefix : string) : string :=
  match d with
  | Word w => w
  | Text s => escape_string s
  | Node o items c =>
    s_nl ++ prefix ++ o ++
    cat (map (fun i => match i with
                       | (l, x) => s_nl ++ prefix ++ "  " ++ show_label escape_map_key l ++
                                   layout x (prefix ++ "  ") ++ ","
                       end) items) ++
    s_nl ++ prefix ++ c
  end.

Lemma layout_head : forall d pad r, readable d = true ->
  (exists s, d = Text s) \/
  exists p c r', plain p = true /\ sep c /\ layout d pad ++ String "," r = p ++ String c r'.
Proof.
  intros [w|s|o items c] pad r R; [right|left|right]; cbn in R.
  - exists w, ","%char, r. unfold sep. auto.
  - eauto.
  - exists "", c_nl. cbn [layout]. unfold s_nl. norm. eexists. unfold sep. auto.
Qed.

Lemma layout_label : forall l l' x x' pad r r', label_ok l = true -> label_ok l' = true ->
  (forall n, l <> Field n) -> (forall n, l' <> Field n) ->
  readable x = true -> readable x' = true ->
  show_label escape_map_key l ++ layout x pad ++ String "," r =
  show_label escape_map_key l' ++ layout x' pad ++ String "," r' ->
  l = l' /\ layout x pad ++ String "," r = layout x' pad ++ String "," r'.
Proof.
  assert (None_Key : forall k x pad r r', readable x = true ->
    layout x pad ++ String "," r = escape_map_key k ++ String ":" r' -> False).
  { intros k x pad r r' R E. destruct (map_key_cases k) as [[H P]|H]; rewrite H in E; clear H.
    - destruct (layout_head x pad r R) as [[s ->]|(p & c & q & Pp & Hs & H)].
      + cbn [layout] in E. destruct (proj2 escape_string_quoting s) as [u Hu]. rewrite Hu in E. symmetry in E.
        revert E. apply plain_quote; auto. discriminate.
      + rewrite H in E. apply plain_split in E; auto using sep_plain.
        destruct E as (_ & -> & _). destruct Hs; discriminate.
    - destruct (layout_head x pad r R) as [[s ->]|(p & c & q & Pp & Hs & H)].
      + cbn [layout] in E. apply (proj1 escape_string_quoting) in E. destruct E. discriminate.
      + rewrite H in E. destruct (proj2 escape_string_quoting k) as [u Hu]. rewrite Hu in E.
        revert E. apply plain_quote; auto using sep_quote. }
  intros [|n|k] [|n'|k'] x x' pad r r' L L' NF NF' R R' E; try solve [destruct (NF n); auto | destruct (NF' n'); auto];
    cbn [show_label label_ok] in *; norm; auto.
  - exfalso. exact (None_Key _ _ _ _ _ R E).
  - exfalso. exact (None_Key _ _ _ _ _ R' (eq_sym E)).
  - destruct (map_key_cases k) as [[H P]|H], (map_key_cases k') as [[H' P']|H']; rewrite H, H' in E; clear H H'.
    + apply plain_split in E; auto. destruct E as (-> & _ & E). injection E. auto.
    + exfalso. destruct (proj2 escape_string_quoting k') as [u Hu]. rewrite Hu in E. revert E.
      apply plain_quote; auto. discriminate.
    + exfalso. destruct (proj2 escape_string_quoting k) as [u Hu]. rewrite Hu in E. symmetry in E. revert E.
      apply plain_quote; auto. discriminate.
    + apply (proj1 escape_string_quoting) in E. destruct E as [-> E]. injection E. auto.
Qed.

(** Documents without field names. *)
Fixpoint keyed (d : doc) : bool :=
  match d with
  | Node _ items _ =>
    forallb (fun i => match i with
                      | (Field _, _) => false
                      | (_, x) => keyed x
                      end) items
  | _ => true
  end.

(** The items of a node, every one on a new line. *)
Fixpoint lines (prefix : string) (items : list (label * doc)) : string :=
  match items with
  | nil => ""
  | (l, x) :: r =>
    String c_nl (prefix ++ "  " ++ show_label escape_map_key l ++
                 layout x (prefix ++ "  ") ++ ",") ++ lines prefix r
  end.
Lemma layout_node : forall o items c pad r,
  layout (Node o items c) pad ++ String "," r =
  String c_nl (pad ++ o ++ lines pad items ++ String c_nl (pad ++ c ++ String "," r)).
Proof.
  intros o items c pad r.
  assert (E : cat (map (fun i => match i with
                       | (l, x) => s_nl ++ pad ++ "  " ++ show_label escape_map_key l ++
                                   layout x (pad ++ "  ") ++ ","
                       end) items) = lines pad items).
  { induction items as [|[l x] items IH]; [reflexivity|]. cbn [map cat lines]. rewrite IH. reflexivity. }
  cbn [layout]. rewrite E. unfold s_nl. norm. reflexivity.
Qed.
Lemma lines_cons : forall pad l x items z,
  lines pad ((l, x) :: items) ++ z =
  String c_nl (pad ++ String " " (String " " (show_label escape_map_key l ++
     layout x (pad ++ "  ") ++ String "," (lines pad items ++ z)))).
Proof. intros. cbn [lines]. norm. reflexivity. Qed.
Lemma lines_head : forall pad items z, exists u, lines pad items ++ String c_nl z = String c_nl u.
Proof.
  intros pad [|[l x] items] z; [eexists; reflexivity|]. rewrite lines_cons. eauto.
Qed.

Lemma layout_code : forall d d' pad r r', readable d = true -> readable d' = true ->
  keyed d = true -> keyed d' = true ->
  layout d pad ++ String "," r = layout d' pad ++ String "," r' -> d = d' /\ r = r'.
Proof.
  assert (Node_Word : forall o items c w pad r r', plain w = true ->
    layout (Node o items c) pad ++ String "," r = w ++ String "," r' -> False).
  { intros o items c w pad r r' P E. cbn [layout] in E. unfold s_nl in E. norm.
    apply (plain_split "" w) in E; auto. destruct E as (_ & E & _). discriminate. }
  induction d as [w|s|o items c IH] using doc_tree; intros d' pad r r' R R' K K' E.
  - destruct d' as [w'|s'|o' items' c']; cbn [readable] in *.
    + cbn [layout] in E. apply plain_split in E; auto. destruct E as (-> & _ & ->). auto.
    + exfalso. cbn [layout] in E. destruct (proj2 escape_string_quoting s') as [u Hu]. rewrite Hu in E. revert E.
      apply plain_quote; auto. discriminate.
    + exfalso. exact (Node_Word _ _ _ _ _ _ _ R (eq_sym E)).
  - destruct d' as [w'|s'|o' items' c']; cbn [readable] in *.
    + exfalso. cbn [layout] in E. destruct (proj2 escape_string_quoting s) as [u Hu]. rewrite Hu in E. symmetry in E. revert E.
      apply plain_quote; auto. discriminate.
    + cbn [layout] in E. apply (proj1 escape_string_quoting) in E. destruct E as [-> E]. injection E. auto.
    + exfalso. cbn [layout] in E. destruct (proj2 escape_string_quoting s) as [u Hu]. rewrite Hu in E.
      unfold s_nl in E. norm. discriminate.
  - destruct d' as [w'|s'|o' items' c'].
    + exfalso. exact (Node_Word _ _ _ _ _ _ _ R' E).
    + exfalso. cbn [layout] in E. destruct (proj2 escape_string_quoting s') as [u Hu]. rewrite Hu in E.
      unfold s_nl in E. norm. discriminate.
    + cbn [readable] in R, R'. apply andb_prop in R as [R Ri], R' as [R' Ri'].
      apply andb_prop in R as [Ro Rc], R' as [Ro' Rc']. cbn [keyed] in K, K'.
      rewrite !layout_node in E. injection E as E. apply app_cancel in E.
      destruct (lines_head pad items (pad ++ c ++ String "," r)) as [u Hu].
      destruct (lines_head pad items' (pad ++ c' ++ String "," r')) as [u' Hu'].
      rewrite Hu, Hu' in E. apply plain_split in E; auto. destruct E as (-> & _ & E).
      rewrite E, <- Hu' in Hu. clear E Hu' Ro Ro' u u'. rename Hu into E.
      assert (X : items = items' /\ c = c' /\ r = r').
      { revert items' Ri' K' E. induction items as [|[l x] items IHi]; intros items' Ri' K' E.
        - destruct items' as [|[l' x'] items']; rewrite ?lines_cons in E; cbn [lines String.append] in E;
            injection E as E; apply app_cancel in E.
          + apply closing_split in E; auto.
          + exfalso. revert E. apply closing_space; auto.
        - inversion IH; subst. cbn [forallb] in Ri, K. apply andb_prop in Ri as [Rx Ri]. apply andb_prop in Rx as [Rl Rx].
          apply andb_prop in K as [Kl K].
          destruct items' as [|[l' x'] items']; rewrite ?lines_cons in E; cbn [lines String.append] in E; injection E as E.
          + exfalso. symmetry in E. apply app_cancel in E. revert E. apply closing_space; auto.
          + cbn [forallb] in Ri', K'. apply andb_prop in Ri' as [Rx' Ri']. apply andb_prop in Rx' as [Rl' Rx'].
            apply andb_prop in K' as [Kl' K'].
            apply app_cancel in E. injection E as E.
            apply layout_label in E; auto; try (intros ? ->; discriminate). destruct E as [-> E].
            cbn [snd] in *. match goal with H : forall d' : doc, _ |- _ => apply H in E; auto end;
              try (destruct l'; auto; discriminate).
            destruct E as [-> E]. apply IHi in E; auto. destruct E as (-> & -> & ->). auto. }
      destruct X as (-> & -> & ->). auto.
Qed.
Lemma layout_inj : forall d d' pad, readable d = true -> readable d' = true ->
  keyed d = true -> keyed d' = true -> layout d pad = layout d' pad -> d = d'.
Proof.
  intros d d' pad R R' K K' E. apply (layout_code d d' pad "" ""); auto. rewrite E. reflexivity.
Qed.
