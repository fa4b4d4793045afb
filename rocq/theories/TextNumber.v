(** Written numbers can be read back. *)
From Coq Require Import ZArith Lia DecimalString DecimalN Floats.SpecFloat.
From Verif Require Import Base F64 Token Ast Show SpecNumber SpecShow F64Facts NumberFacts RustText SpecText SpecDriver StrFacts
  TextFacts ShowFacts ShowNumbers DriverFacts.
Import SpecNumber.
Local Open Scope string_scope.

(** ** Only the value of a decimal matters. *)
Section Ratio.
Local Open Scope Z_scope.
Lemma gap_ratio m k m' k' q g : Z.of_N m * 10 ^ Z.of_nat k' = Z.of_N m' * 10 ^ Z.of_nat k ->
  gap m k q g * 10 ^ Z.of_nat k' = gap m' k' q g * 10 ^ Z.of_nat k.
Proof.
  intros E. unfold gap.
  assert (P : 0 < 10 ^ Z.of_nat k) by (apply Z.pow_pos_nonneg; lia).
  assert (P' : 0 < 10 ^ Z.of_nat k') by (apply Z.pow_pos_nonneg; lia).
  assert (M : forall a T, 0 < T -> Z.abs a * T = Z.abs (a * T)) by (intros a T PT; rewrite Z.abs_mul, (Z.abs_eq T); lia).
  rewrite !M by assumption. f_equal.
  set (T := 10 ^ Z.of_nat k) in *. set (T' := 10 ^ Z.of_nat k') in *. set (X := q * 2 ^ (g + 1074)).
  set (W := 2 ^ 1074). clearbody T T' X W.
  replace ((X * T - Z.of_N m * W) * T') with (X * T * T' - Z.of_N m * T' * W) by ring. rewrite E. ring.
Qed.
Lemma nearest_ratio m k m' k' p e : Z.of_N m * 10 ^ Z.of_nat k' = Z.of_N m' * 10 ^ Z.of_nat k ->
  nearest m k p e -> nearest m' k' p e.
Proof.
  intros E N q g B. destruct (N q g B) as [A1 A2].
  pose proof (gap_ratio m k m' k' p e E) as G1. pose proof (gap_ratio m k m' k' q g E) as G2.
  assert (P : 0 < 10 ^ Z.of_nat k) by (apply Z.pow_pos_nonneg; lia).
  assert (P' : 0 < 10 ^ Z.of_nat k') by (apply Z.pow_pos_nonneg; lia).
  set (T := 10 ^ Z.of_nat k) in *. set (T' := 10 ^ Z.of_nat k') in *. clearbody T T'.
  set (a := gap m k p e) in *. set (b := gap m k q g) in *. set (a' := gap m' k' p e) in *. set (b' := gap m' k' q g) in *.
  clearbody a b a' b'. split; [nia|]. intros X. apply A2. nia.
Qed.
Lemma overflows_ratio m k m' k' : Z.of_N m * 10 ^ Z.of_nat k' = Z.of_N m' * 10 ^ Z.of_nat k ->
  overflows m k -> overflows m' k'.
Proof.
  unfold overflows. intros E.
  assert (P : 0 < 10 ^ Z.of_nat k) by (apply Z.pow_pos_nonneg; lia).
  assert (P' : 0 < 10 ^ Z.of_nat k') by (apply Z.pow_pos_nonneg; lia).
  set (T := 10 ^ Z.of_nat k) in *. set (T' := 10 ^ Z.of_nat k') in *. set (W := (2 ^ 54 - 1) * 2 ^ 970).
  clearbody T T' W. nia.
Qed.
Lemma rounded_ratio m k m' k' x : Z.of_N m * 10 ^ Z.of_nat k' = Z.of_N m' * 10 ^ Z.of_nat k ->
  rounded m k x -> rounded m' k' x.
Proof.
  intros E. destruct x as [[]|[]| |[] p e]; cbn [rounded]; auto.
  - now apply nearest_ratio.
  - now apply overflows_ratio.
  - intros (B & L & O & N). split; [exact B|]. split; [exact L|]. split.
    + intros O'. apply O. eapply overflows_ratio; [|exact O']. now symmetry.
    + exact (nearest_ratio m k m' k' _ _ E N).
Qed.
(** Two ways to write one decimal as a fraction. *)
Lemma stands_ratio d p m k m' k' : stands d p m k -> stands d p m' k' ->
  Z.of_N m * 10 ^ Z.of_nat k' = Z.of_N m' * 10 ^ Z.of_nat k.
Proof.
  unfold stands. intros A B.
  assert (P : 0 < 10 ^ Z.of_nat k) by (apply Z.pow_pos_nonneg; lia).
  assert (P' : 0 < 10 ^ Z.of_nat k') by (apply Z.pow_pos_nonneg; lia).
  assert (Q : 0 < 10 ^ Z.max 0 (Z.of_nat (String.length d) - p)) by (apply Z.pow_pos_nonneg; lia).
  set (T := 10 ^ Z.of_nat k) in *. set (T' := 10 ^ Z.of_nat k') in *.
  set (V := 10 ^ Z.max 0 (Z.of_nat (String.length d) - p)) in *.
  set (W := Z.of_N (digits_value d) * 10 ^ Z.max 0 (p - Z.of_nat (String.length d))) in *.
  clearbody T T' V W. apply (Z.mul_reg_r _ _ V); [lia|].
  replace (Z.of_N m * T' * V) with (Z.of_N m * V * T') by ring. rewrite A.
  replace (Z.of_N m' * T * V) with (Z.of_N m' * V * T) by ring. rewrite B. ring.
Qed.
Lemma reads_rounded x d p m k : reads_as x d p -> stands d p m k -> rounded m k x.
Proof.
  intros (m' & k' & A & R) B. eapply rounded_ratio; [|exact R]. now apply (stands_ratio d p).
Qed.
Lemma reads_unique x y d p : reads_as x d p -> reads_as y d p -> x = y.
Proof.
  intros A (m & k & B & R). eapply rounded_unique; [|exact R]. eapply reads_rounded; eauto.
Qed.
End Ratio.

(** ** Digits *)
Lemma digits_app a b : digits a -> digits b -> digits (a ++ b).
Proof.
  intros A B c. induction a as [|x a IH]; cbn; auto. intros [->|I]; [apply A; now left|].
  apply IH; auto. intros y J. apply A. now right.
Qed.
Lemma digits_inv a b : digits (a ++ b) -> digits a /\ digits b.
Proof.
  induction a as [|x a IH]; cbn; intros H; [split; auto; intros c []|].
  destruct IH as [A B]; [intros c I; apply H; now right|]. split; auto.
  intros c [->|I]; [apply H; now left|now apply A].
Qed.
Lemma zeros_digits n : digits (zeros n).
Proof. induction n; cbn; intros c; [intros []|intros [<-|I]; [vm_compute; split; discriminate|now apply IHn]]. Qed.
Lemma zeros_length n : slen (zeros n) = n.
Proof. induction n; cbn; congruence. Qed.
Lemma value_app a b : digits_value (a ++ b) = (digits_value a * 10 ^ N.of_nat (slen b) + digits_value b)%N.
Proof.
  induction a as [|c a IH]; cbn [String.append digits_value String.length]; [lia|].
  rewrite IH, slen_append, Nat2N.inj_add, N.pow_add_r. unfold slen. lia.
Qed.
Lemma zeros_value n : digits_value (zeros n) = 0%N.
Proof. induction n; cbn; auto. Qed.
Lemma substring_split d q : (q <= slen d)%nat -> String.substring 0 q d ++ String.substring q (slen d - q) d = d.
Proof.
  revert q. induction d as [|c d IH]; intros [|q] L; cbn in *; try lia; auto.
  - f_equal. specialize (IH 0%nat ltac:(lia)). rewrite Nat.sub_0_r in IH. now destruct d.
  - f_equal. apply IH. lia.
Qed.
Lemma substring_length q d : (q <= slen d)%nat -> slen (String.substring 0 q d) = q.
Proof.
  revert q. induction d as [|c d IH]; intros [|q] L; cbn in *; try lia; auto. now rewrite IH by lia.
Qed.

(** A decimal that is written out reads as the digits that were found. *)
Lemma dec_parse x d p frac : significant d -> reads_as x d p -> parse_f64 (dec_str (d, p) frac) = Some x.
Proof.
  intros [D NZ] R. assert (NE : d <> "") by (intros ->; contradiction). clear NZ.
  unfold dec_str. destruct (Z.leb_spec p 0) as [L|L].
  - set (z := Z.to_nat (- p)). set (j := (frac - (slen d + z))%nat).
    change ("0." ++ zeros z ++ d ++ zeros j) with ("0" ++ String "." (zeros z ++ d ++ zeros j)).
    rewrite parse_point; [|discriminate|intros c [<-|[]]; vm_compute; split; discriminate|
      repeat apply digits_app; auto using zeros_digits].
    f_equal. eapply rounded_unique; [apply round_decimal_correct|]. eapply reads_rounded; [exact R|].
    unfold stands. rewrite !value_app, !slen_append, !zeros_length, !zeros_value.
    change (digits_value "0") with 0%N. rewrite N.mul_0_l, !N.add_0_l, N.add_0_r.
    replace (Z.max 0 (p - Z.of_nat (String.length d))) with 0%Z by (fold (slen d); lia).
    rewrite N2Z.inj_mul, N2Z.inj_pow, nat_N_Z. change (Z.of_N 10) with 10%Z.
    fold (slen d). rewrite <- !Z.mul_assoc, <- !Z.pow_add_r by lia. do 2 f_equal. unfold z. lia.
  - set (q := Z.to_nat p). destruct (Nat.ltb_spec q (slen d)) as [Q|Q].
    + set (j := (frac - (slen d - q))%nat).
      assert (SP := substring_split d q ltac:(lia)). assert (SL := substring_length q d ltac:(lia)).
      set (a := String.substring 0 q d) in *. set (b := String.substring q (slen d - q) d) in *.
      assert (AB : digits a /\ digits b) by (apply digits_inv; now rewrite SP). destruct AB as [Da Db].
      change (a ++ "." ++ b ++ zeros j) with (a ++ String "." (b ++ zeros j)).
      assert (BL : slen b = (slen d - q)%nat).
      { assert (X : slen d = (slen a + slen b)%nat) by (rewrite <- SP at 1; apply slen_append). lia. }
      rewrite parse_point; auto using digits_app, zeros_digits; [|intros E; rewrite E in SL; cbn in SL; lia].
      f_equal. eapply rounded_unique; [apply round_decimal_correct|]. eapply reads_rounded; [exact R|].
      unfold stands. rewrite append_assoc_s, SP. fold (slen d).
      change (String.length (b ++ zeros j)) with (slen (b ++ zeros j)).
      rewrite value_app, !slen_append, !zeros_length, zeros_value, N.add_0_r, BL.
      replace (Z.max 0 (p - Z.of_nat (slen d))) with 0%Z by lia.
      rewrite N2Z.inj_mul, N2Z.inj_pow, nat_N_Z. change (Z.of_N 10) with 10%Z.
      rewrite <- !Z.mul_assoc, <- !Z.pow_add_r by lia. do 2 f_equal. unfold q in *. lia.
    + assert (V : forall m k, m = (digits_value d * 10 ^ N.of_nat (q - slen d + k))%N -> stands d p m k).
      { intros m k ->. unfold stands. fold (slen d). replace (Z.max 0 (Z.of_nat (slen d) - p)) with 0%Z by lia.
        rewrite N2Z.inj_mul, N2Z.inj_pow, nat_N_Z. change (Z.of_N 10) with 10%Z.
        rewrite <- !Z.mul_assoc, <- !Z.pow_add_r by lia. do 2 f_equal. unfold q in *. lia. }
      destruct frac as [|frac].
      * rewrite append_nil_r. rewrite parse_whole; auto using digits_app, zeros_digits; [|now destruct d].
        f_equal. eapply rounded_unique; [apply round_decimal_correct|]. eapply reads_rounded; [exact R|]. apply V.
        now rewrite value_app, zeros_length, zeros_value, N.add_0_r, Nat.add_0_r.
      * change (d ++ zeros (q - slen d) ++ "." ++ zeros (S frac))
          with (d ++ zeros (q - slen d) ++ String "." (zeros (S frac))).
        rewrite append_assoc_s.
        rewrite parse_point; auto using digits_app, zeros_digits; [|now destruct d].
        f_equal. eapply rounded_unique; [apply round_decimal_correct|]. eapply reads_rounded; [exact R|]. apply V.
        rewrite !value_app, !zeros_length, !zeros_value, !N.add_0_r.
        rewrite Nat2N.inj_add, N.pow_add_r. lia.
Qed.

(** ** Texts that differ *)
Notation no_e := DriverFacts.digits.
Lemma no_e_app a b : no_e (a ++ b) = (no_e a && no_e b)%bool.
Proof. induction a; cbn [append DriverFacts.digits]; auto. rewrite IHa. apply andb_assoc. Qed.
Lemma digits_no_e d : digits d -> no_e d = true.
Proof.
  induction d as [|c d IH]; intros D; auto. cbn [DriverFacts.digits].
  rewrite IH by (intros x I; apply D; now right). rewrite andb_true_r.
  assert (B := D c (or_introl eq_refl)). destruct (Ascii.eqb_spec c "e"%char) as [->|_]; auto. vm_compute in B. now destruct B.
Qed.
Lemma read_no_e s : forall dot acc frac cnt x, read_decimal s dot acc frac cnt = Some x -> no_e s = true.
Proof.
  induction s as [|c s IH]; intros dot acc frac cnt x H; auto. cbn [read_decimal DriverFacts.digits] in *.
  destruct (digit_val c) as [v|] eqn:V.
  - rewrite (IH _ _ _ _ _ H), andb_true_r. destruct (Ascii.eqb_spec c "e"%char) as [->|_]; auto. discriminate V.
  - destruct (Ascii.eqb_spec c "."%char) as [->|_]; [|discriminate]. destruct dot; [discriminate|].
    now rewrite (IH _ _ _ _ _ H).
Qed.
Lemma parse_no_e s x : parse_f64 s = Some x -> no_e s = true.
Proof.
  unfold parse_f64. destruct (read_decimal s false 0 0 0) as [[[]]|] eqn:E; [|discriminate]. intros _.
  eapply read_no_e; eauto.
Qed.

Lemma lacks_app bad a b : lacks bad (a ++ b) = (lacks bad a && lacks bad b)%bool.
Proof. induction a; cbn [append lacks]; auto. rewrite IHa. apply andb_assoc. Qed.
Lemma digits_lacks d : digits d -> lacks delimiters d = true.
Proof.
  induction d as [|c d IH]; intros D; auto. cbn [lacks].
  rewrite IH by (intros x I; apply D; now right). rewrite andb_true_r.
  assert (B := D c (or_introl eq_refl)). unfold delimiters. cbn [existsb].
  destruct (Ascii.eqb_spec c ":"%char) as [->|_]; [vm_compute in B; now destruct B|].
  destruct (Ascii.eqb_spec c ","%char) as [->|_]; [vm_compute in B; now destruct B|].
  destruct (Ascii.eqb_spec c (ascii_of_nat 10)) as [->|_]; [vm_compute in B; now destruct B|].
  destruct (Ascii.eqb_spec c (ascii_of_nat 34)) as [->|_]; [vm_compute in B; now destruct B|]. reflexivity.
Qed.
Lemma decimal_lacks n : lacks delimiters (decimal n) = true.
Proof.
  assert (X : forall d, lacks delimiters (NilEmpty.string_of_uint d) = true) by (induction d; cbn; auto).
  unfold decimal, NilZero.string_of_uint. destruct (N.to_uint n); try apply X; reflexivity.
Qed.
Lemma read_lacks s : forall dot acc frac cnt x, read_decimal s dot acc frac cnt = Some x -> lacks delimiters s = true.
Proof.
  induction s as [|c s IH]; intros dot acc frac cnt x H; auto. cbn [read_decimal lacks] in *.
  destruct (digit_val c) as [v|] eqn:V.
  - rewrite (IH _ _ _ _ _ H), andb_true_r. clear - V. revert V. unfold digit_val.
    destruct c as [[] [] [] [] [] [] [] []]; vm_compute; intros; auto; discriminate.
  - destruct (Ascii.eqb_spec c "."%char) as [->|_]; [|discriminate]. destruct dot; [discriminate|].
    now rewrite (IH _ _ _ _ _ H).
Qed.
Lemma parse_lacks s x : parse_f64 s = Some x -> lacks delimiters s = true.
Proof.
  unfold parse_f64. destruct (read_decimal s false 0 0 0) as [[[]]|] eqn:E; [|discriminate]. intros _.
  eapply read_lacks; eauto.
Qed.
Lemma part_digits d q : (q <= slen d)%nat -> digits d ->
  digits (String.substring 0 q d) /\ digits (String.substring q (slen d - q) d).
Proof. intros L D. apply digits_inv. now rewrite substring_split. Qed.
Lemma dec_lacks d p frac : digits d -> lacks delimiters (dec_str (d, p) frac) = true.
Proof.
  intros D. unfold dec_str.
  assert (Z : forall n, lacks delimiters (zeros n) = true) by (intros; apply digits_lacks, zeros_digits).
  destruct (Z.leb_spec p 0); [rewrite !lacks_app, !Z, (digits_lacks d D); reflexivity|].
  destruct (Nat.ltb_spec (Z.to_nat p) (slen d)) as [Q|Q].
  - destruct (part_digits d (Z.to_nat p) ltac:(lia) D) as [A B].
    rewrite !lacks_app, !Z, (digits_lacks _ A), (digits_lacks _ B). reflexivity.
  - rewrite !lacks_app, Z, (digits_lacks _ D). destruct frac; [reflexivity|]. rewrite lacks_app, Z. reflexivity.
Qed.
Lemma exp_lacks d p plus : digits d -> d <> "" -> lacks delimiters plus = true -> lacks delimiters (exp_str (d, p) plus) = true.
Proof.
  intros D NE P. unfold exp_str. assert (L : (1 <= slen d)%nat) by (destruct d; [congruence|cbn; lia]).
  destruct (part_digits d 1 L D) as [A B].
  rewrite !lacks_app, decimal_lacks, (digits_lacks _ A).
  assert (S1 : lacks delimiters (if (p - 1 <? 0)%Z then "-" else plus) = true) by (destruct (_ <? _)%Z; auto).
  assert (S2 : lacks delimiters (if (1 <? slen d)%nat then "." ++ String.substring 1 (slen d - 1) d else "") = true)
    by (destruct (_ <? _)%nat; [rewrite lacks_app, (digits_lacks _ B)|]; reflexivity).
  rewrite S1, S2. reflexivity.
Qed.

Lemma decimal_same n n' : decimal n = decimal n' -> n = n'.
Proof. exact (decimal_inj n n'). Qed.
Lemma decimal_head n : exists c r, decimal n = String c r /\ c <> "-"%char /\ c <> "+"%char.
Proof.
  unfold decimal, NilZero.string_of_uint. destruct (N.to_uint n); cbn; eexists; eexists; (split; [reflexivity|]);
    split; discriminate.
Qed.
Lemma exp_same d p d' p' plus : significant d -> significant d' -> plus = "" \/ plus = "+" ->
  exp_str (d, p) plus = exp_str (d', p') plus -> d = d' /\ p = p'.
Proof.
  intros [D N] [D' N'] PL E. destruct d as [|c r]; [contradiction|]. destruct d' as [|c' r']; [contradiction|].
  assert (Dr : digits r) by (intros x I; apply D; now right). assert (Dr' : digits r') by (intros x I; apply D'; now right).
  assert (SUB : forall s : string, String.substring 0 (slen s) s = s) by (induction s; cbn; congruence).
  assert (F : forall c r p, digits (String c r) -> exp_str (String c r, p) plus =
    String c (if (0 <? slen r)%nat then "." ++ r else "") ++ String "e" ((if (p - 1 <? 0)%Z then "-" else plus) ++ decimal (Z.abs_N (p - 1)))).
  { clear - SUB. intros c r p D. unfold exp_str. cbn [String.length slen String.substring].
    change (String.length (String c r)) with (S (slen r)). cbn [Nat.sub]. rewrite Nat.sub_0_r, SUB.
    replace (1 <? S (slen r))%nat with (0 <? slen r)%nat by reflexivity.
    replace (String.substring 0 0 r) with "" by (now destruct r). reflexivity. }
  rewrite !F in E by assumption.
  apply digits_split in E.
  - destruct E as [E1 E2]. injection E1 as <- E1.
    assert (R : r = r').
    { destruct r, r'; cbn in E1; try discriminate; auto. injection E1 as <- E1. now f_equal. }
    subst r'. split; auto.
    destruct (decimal_head (Z.abs_N (p - 1))) as (x & u & H1 & H2 & H3).
    destruct (decimal_head (Z.abs_N (p' - 1))) as (y & v & K1 & K2 & K3).
    destruct (Z.ltb_spec (p - 1) 0), (Z.ltb_spec (p' - 1) 0).
    + injection E2 as E2. apply decimal_same in E2. lia.
    + exfalso. rewrite K1 in E2. destruct PL as [->| ->]; cbn in E2; [|discriminate]. injection E2 as E2 _. congruence.
    + exfalso. rewrite H1 in E2. destruct PL as [->| ->]; cbn in E2; [|discriminate]. injection E2 as E2 _. congruence.
    + assert (E3 : decimal (Z.abs_N (p - 1)) = decimal (Z.abs_N (p' - 1))).
      { destruct PL as [->| ->]; [exact E2|]. now injection E2. }
      apply decimal_same in E3. lia.
  - clear E. change (String c (if (0 <? slen r)%nat then "." ++ r else "")) with (String c "" ++ (if (0 <? slen r)%nat then "." ++ r else "")).
    rewrite no_e_app, digits_no_e by (intros x [<-|[]]; apply D; now left).
    destruct (_ <? _)%nat; [|reflexivity]. rewrite no_e_app, (digits_no_e r Dr). reflexivity.
  - clear E. change (String c' (if (0 <? slen r')%nat then "." ++ r' else "")) with (String c' "" ++ (if (0 <? slen r')%nat then "." ++ r' else "")).
    rewrite no_e_app, digits_no_e by (intros x [<-|[]]; apply D'; now left).
    destruct (_ <? _)%nat; [|reflexivity]. rewrite no_e_app, (digits_no_e r' Dr'). reflexivity.
Qed.
Lemma exp_has_e d p plus : no_e (exp_str (d, p) plus) = false.
Proof.
  unfold exp_str. rewrite !no_e_app. change (no_e "e") with false. cbn [andb]. now rewrite !andb_false_r.
Qed.

Lemma literal_cases x : literal x ->
  x = S754_zero false \/ x = S754_infinity false \/ exists m e, x = S754_finite false m e.
Proof.
  intros (s & E). unfold parse_f64 in E. destruct (read_decimal s false 0 0 0) as [[[m k] []]|]; try discriminate E.
  injection E as <-. pose proof (round_decimal_correct m k) as R.
  destruct (round_decimal m k) as [[]|[]| |[]]; cbn in R; try contradiction; eauto.
Qed.

(** Both notations at once: [sci m e] says which numbers are written scientifically. *)
Section Written.
Variable digs : positive -> Z -> found.
Hypothesis G : finds digs.
Variables (f : f64 -> string) (sci : positive -> Z -> bool) (frac : nat) (plus zero inf : string).
Hypothesis PL : plus = "" \/ plus = "+".
Hypothesis ZE : parse_f64 zero = Some (S754_zero false).
Hypothesis IN : parse_f64 inf = None /\ no_e inf = true /\ lacks delimiters inf = true.
Hypothesis FZ : f (S754_zero false) = zero.
Hypothesis FI : f (S754_infinity false) = inf.
Hypothesis FF : forall m e, f (S754_finite false m e) =
  if sci m e then exp_str (digs m e) plus else dec_str (digs m e) frac.

(** What is written decimally reads as the number. *)
Lemma written_parse m e : literal (S754_finite false m e) -> sci m e = false ->
  parse_f64 (f (S754_finite false m e)) = Some (S754_finite false m e).
Proof.
  intros L S. rewrite FF, S. destruct (G m e L) as [A B]. destruct (digs m e) as [d p]. now apply dec_parse.
Qed.
Lemma written_numbers : writes_numbers f.
Proof.
  destruct IN as (I1 & I2 & I3).
  assert (PD : lacks delimiters plus = true) by (destruct PL as [->| ->]; reflexivity).
  split.
  - intros x L. destruct (literal_cases x L) as [->|[->|(m & e & ->)]].
    + rewrite FZ. eapply parse_lacks; eauto.
    + now rewrite FI.
    + rewrite FF. destruct (G m e L) as [[D NZ] _]. destruct (digs m e) as [d p]. cbn [fst] in *.
      assert (NE : d <> "") by (intros ->; contradiction).
      destruct (sci m e); [now apply exp_lacks|now apply dec_lacks].
  - intros x y L L' E.
    assert (K : forall x, literal x -> no_e (f x) = true /\ (parse_f64 (f x) = Some x \/ x = S754_infinity false /\ parse_f64 (f x) = None)
       \/ no_e (f x) = false /\ exists m e, x = S754_finite false m e /\ sci m e = true).
    { intros z Lz. destruct (literal_cases z Lz) as [->|[->|(m & e & ->)]].
      - left. rewrite FZ. split; auto. eapply parse_no_e; eauto.
      - left. rewrite FI. auto.
      - destruct (sci m e) eqn:S.
        + right. split; [|eauto]. rewrite FF, S. destruct (digs m e). apply exp_has_e.
        + left. pose proof (written_parse m e Lz S) as W. split; auto. eapply parse_no_e; eauto. }
    destruct (K x L) as [[A B]|[A B]], (K y L') as [[A' B']|[A' B']]; try (rewrite E in A; congruence).
    + destruct B as [B|[-> B]], B' as [B'|[-> B']]; try congruence; rewrite E in B; congruence.
    + destruct B as (m & e & -> & S), B' as (m' & e' & -> & S').
      rewrite !FF, S, S' in E. destruct (G m e L) as [D R], (G m' e' L') as [D' R'].
      destruct (digs m e) as [d p], (digs m' e') as [d' p']. cbn [fst snd] in *.
      apply exp_same in E; auto. destruct E as [<- <-]. eapply reads_unique; eauto.
Qed.
End Written.
Theorem rust_num_writes digs : finds digs -> writes_numbers (rust_num digs).
Proof.
  intros G. eapply (written_numbers digs G (rust_num digs)
    (fun m e => SFleb (round_decimal (10 ^ 16) 0) (S754_finite false m e) || SFltb (S754_finite false m e) (round_decimal 1 4))
    1 "" "0.0" "inf"); auto.
Qed.
Theorem js_num_writes digs : finds digs -> writes_numbers (js_num digs).
Proof.
  intros G. eapply (written_numbers digs G (js_num digs)
    (fun m e => negb ((-6 <? snd (digs m e))%Z && (snd (digs m e) <=? 21)%Z)) 0 "+" "0" "Infinity"); auto.
  intros m e. cbn [js_num append]. destruct (digs m e) as [d n]. cbn [snd]. now destruct ((-6 <? n)%Z && (n <=? 21)%Z).
Qed.
(** Numbers that Rust writes decimally can be pasted into a program. *)
Theorem rust_num_parse digs m e : finds digs -> literal (S754_finite false m e) ->
  SFleb (round_decimal (10 ^ 16) 0) (S754_finite false m e) = false ->
  SFltb (S754_finite false m e) (round_decimal 1 4) = false ->
  parse_f64 (rust_num digs (S754_finite false m e)) = Some (S754_finite false m e).
Proof.
  intros G L A B. cbn [rust_num append]. change (SFabs (S754_finite false m e)) with (S754_finite false m e).
  rewrite A, B. destruct (G m e L) as [D R]. destruct (digs m e) as [d p]. now apply dec_parse.
Qed.
