(** The decimal written for a number reads back as that number. *)
From Coq Require Import ZArith Floats.SpecFloat Lia.
From Verif Require Import Base F64 SpecNumber F64Facts NumberFacts SpecWrite.

Lemma digits_app a b : digits a -> digits b -> digits (String.append a b).
Proof.
  intros A B c I. induction a as [|d a IH]; cbn in I; [auto|].
  destruct I as [<-|I]; [apply A; now left|]. apply IH; auto. intros e J. apply A. now right.
Qed.
Lemma digits_one d : (d < 10)%N -> digits (String (ascii_of_N (48 + d)) "").
Proof. intros L c [<-|[]]. rewrite N_ascii_embedding by lia. lia. Qed.
Lemma low_digits_digits k : forall n, digits (low_digits k n).
Proof.
  induction k as [|k IH]; intros n; cbn [low_digits]; [intros c []|].
  apply digits_app; auto. apply digits_one. apply N.mod_lt. discriminate.
Qed.
Lemma low_digits_length k : forall n, String.length (low_digits k n) = k.
Proof.
  induction k as [|k IH]; intros n; cbn [low_digits]; [reflexivity|].
  rewrite length_append, IH. cbn. lia.
Qed.
Lemma value_app a b :
  digits_value (String.append a b) = (digits_value a * 10 ^ N.of_nat (String.length b) + digits_value b)%N.
Proof.
  induction a as [|c a IH]; cbn [String.append digits_value]; [lia|].
  rewrite IH, length_append, Nat2N.inj_add, N.pow_add_r. lia.
Qed.
Lemma low_digits_value k : forall n, digits_value (low_digits k n) = (n mod 10 ^ N.of_nat k)%N.
Proof.
  induction k as [|k IH]; intros n; cbn [low_digits].
  - now rewrite N.mod_1_r.
  - assert (L : (n mod 10 < 10)%N) by (apply N.mod_lt; discriminate).
    rewrite value_app, IH. cbn [digits_value String.length].
    rewrite N_ascii_embedding by (revert L; generalize (n mod 10)%N; intros; lia).
    rewrite (Nat2N.inj_succ k), (N.pow_succ_r' 10). change (N.of_nat 1) with 1%N. change (N.of_nat 0) with 0%N.
    rewrite N.pow_1_r, N.pow_0_r.
    rewrite (N.mod_mul_r n 10 (10 ^ N.of_nat k)) by (try apply N.pow_nonzero; discriminate).
    generalize ((n / 10) mod 10 ^ N.of_nat k)%N (n mod 10)%N. intros. lia.
Qed.
Lemma trim_digits s : digits s -> digits (trim s).
Proof.
  induction s as [|c s IH]; intros D; [exact D|]. cbn [trim].
  assert (D' : digits s) by (intros e I; apply D; now right).
  destruct c as [[] [] [] [] [] [] [] []]; try exact D. destruct s; [exact D|auto].
Qed.
Lemma trim_value s : digits_value (trim s) = digits_value s.
Proof.
  induction s as [|c s IH]; [reflexivity|]. cbn [trim].
  destruct c as [[] [] [] [] [] [] [] []]; try reflexivity. destruct s; [reflexivity|]. rewrite IH. cbn [digits_value]. change (N_of_ascii "0" - 48)%N with 0%N. lia.
Qed.
Lemma trim_nonempty s : s <> EmptyString -> trim s <> EmptyString.
Proof.
  induction s as [|c s IH]; [congruence|]. intros _. cbn [trim].
  destruct c as [[] [] [] [] [] [] [] []]; try discriminate. destruct s; [discriminate|]. apply IH. discriminate.
Qed.
Lemma size_bound n : (n < 10 ^ N.of_nat (S (N.size_nat n)))%N.
Proof.
  assert (H : (n < 2 ^ N.of_nat (N.size_nat n))%N).
  { destruct n as [|p]; [reflexivity|]. cbn [N.size_nat].
    induction p as [p IH|p IH|]; cbn [Pos.size_nat]; rewrite ?Nat2N.inj_succ, ?N.pow_succ_r'; lia. }
  eapply N.lt_le_trans; [exact H|]. rewrite Nat2N.inj_succ, N.pow_succ_r'.
  pose proof (N.pow_le_mono_l 2 10 (N.of_nat (N.size_nat n))). lia.
Qed.
Lemma whole_ok n : digits (whole_text n) /\ digits_value (whole_text n) = n /\ whole_text n <> EmptyString.
Proof.
  unfold whole_text. split; [apply trim_digits, low_digits_digits|split].
  - rewrite trim_value, low_digits_value. apply N.mod_small, size_bound.
  - apply trim_nonempty. intros E. pose proof (low_digits_length (S (N.size_nat n)) n) as L. rewrite E in L. discriminate.
Qed.

Local Open Scope Z_scope.
Lemma exact_nearest m k p e : -1074 <= e ->
  p * 2 ^ (e + 1074) * 10 ^ Z.of_nat k = Z.of_N m * 2 ^ 1074 -> nearest m k p e.
Proof.
  intros LE E q g _. unfold gap. rewrite E, Z.sub_diag. cbn [Z.abs]. split; [apply Z.abs_nonneg|].
  intros H. left. symmetry in H. apply Z.abs_0_iff in H.
  assert (P : 10 ^ Z.of_nat k <> 0) by (apply Z.pow_nonzero; lia).
  apply (Z.mul_reg_r _ _ _ P). lia.
Qed.
Lemma pow_split a b c : 0 <= a -> 0 <= b -> c = a + b -> 2 ^ c = 2 ^ a * 2 ^ b.
Proof. intros A B ->. now apply Z.pow_add_r. Qed.

(** The integer case. *)
Lemma exact_whole p e : 0 <= e ->
  Z.pos p * 2 ^ (e + 1074) * 10 ^ Z.of_nat 0 = Z.of_N (N.pos p * 2 ^ Z.to_N e) * 2 ^ 1074.
Proof.
  intros E. rewrite N2Z.inj_mul, N2Z.inj_pow, Z2N.id by exact E. cbn [Z.of_N Z.of_nat].
  rewrite Z.pow_0_r, Z.mul_1_r, (Z.pow_add_r 2 e 1074) by lia. ring.
Qed.
(** The fraction: [p / 2^k = p * 5^k / 10^k]. *)
Lemma exact_fraction p e : -1074 <= e < 0 ->
  Z.pos p * 2 ^ (e + 1074) * 10 ^ Z.of_nat (Z.to_nat (- e))
  = Z.of_N (N.pos p * 5 ^ N.of_nat (Z.to_nat (- e))) * 2 ^ 1074.
Proof.
  intros E. rewrite N2Z.inj_mul, N2Z.inj_pow. rewrite nat_N_Z, Z2Nat.id by lia. cbn [Z.of_N].
  change 10 with (2 * 5). rewrite Z.pow_mul_l.
  rewrite (pow_split (e + 1074) (- e) 1074) by lia. ring.
Qed.
Lemma small p e m k : binary64 (Z.pos p) e -> 
  Z.pos p * 2 ^ (e + 1074) * 10 ^ Z.of_nat k = Z.of_N m * 2 ^ 1074 -> ~ overflows m k.
Proof.
  intros (B & L & H) E O. unfold overflows in O. rewrite Z.abs_eq in B by lia.
  assert (T : 0 < 10 ^ Z.of_nat k) by (apply Z.pow_pos_nonneg; lia).
  assert (P : 2 ^ (e + 1074) <= 2 ^ (971 + 1074)) by (apply Z.pow_le_mono_r; lia).
  assert (Q : 0 < 2 ^ (e + 1074)) by (apply Z.pow_pos_nonneg; lia).
  assert (X : (2 ^ 54 - 1) * 2 ^ 970 * 10 ^ Z.of_nat k * 2 ^ 1074 <= Z.pos p * 2 ^ (e + 1074) * 10 ^ Z.of_nat k).
  { rewrite E. apply Z.mul_le_mono_nonneg_r; [|exact O]. apply Z.pow_nonneg. lia. }
  assert (Y : Z.pos p * 2 ^ (e + 1074) <= (2 ^ 53 - 1) * 2 ^ (971 + 1074)).
  { apply Z.mul_le_mono_nonneg; lia. }
  assert (Z1 : (2 ^ 53 - 1) * 2 ^ (971 + 1074) * 10 ^ Z.of_nat k < (2 ^ 54 - 1) * 2 ^ 970 * 2 ^ 1074 * 10 ^ Z.of_nat k).
  { apply Z.mul_lt_mono_pos_r; [exact T|]. vm_compute. reflexivity. }
  assert (Z2 : Z.pos p * 2 ^ (e + 1074) * 10 ^ Z.of_nat k <= (2 ^ 53 - 1) * 2 ^ (971 + 1074) * 10 ^ Z.of_nat k).
  { apply Z.mul_le_mono_nonneg_r; [lia|exact Y]. }
  assert (Z3 : (2 ^ 54 - 1) * 2 ^ 970 * 2 ^ 1074 * 10 ^ Z.of_nat k = (2 ^ 54 - 1) * 2 ^ 970 * 10 ^ Z.of_nat k * 2 ^ 1074)
    by ring.
  rewrite Z3 in Z1. exact (Z.lt_irrefl _ (Z.lt_le_trans _ _ _ Z1 (Z.le_trans _ _ _ X Z2))).
Qed.
Lemma exact_rounded m k p e : binary64 (Z.pos p) e -> 2 ^ 52 <= Z.pos p \/ e = -1074 ->
  Z.pos p * 2 ^ (e + 1074) * 10 ^ Z.of_nat k = Z.of_N m * 2 ^ 1074 ->
  round_decimal m k = S754_finite false p e.
Proof.
  intros B N E. eapply rounded_unique; [apply round_decimal_correct|].
  split; [exact B|]. split; [exact N|]. split; [eapply small; eauto|]. apply exact_nearest; [apply B|exact E].
Qed.

(** What is written reads back. *)
Lemma number_text_reads x : literal x -> exists whole fraction,
  whole <> EmptyString /\ digits whole /\ digits fraction /\
  (number_text x = whole /\ fraction = EmptyString \/
   number_text x = String.append whole (String "." fraction) /\ fraction <> EmptyString) /\
  parse_f64 (number_text x) = Some x.
Proof.
  destruct x as [[]|[]| |[] p e]; intros L; try contradiction.
  - exists "0", EmptyString. split; [discriminate|]. split; [intros c [<-|[]]; vm_compute; split; discriminate|].
    split; [intros c []|]. split; [auto|reflexivity].
  - exists (number_text (S754_infinity false)), EmptyString.
    assert (D : digits (number_text (S754_infinity false))).
    { intros c I. cbn [number_text list_ascii_of_string] in I. destruct I as [<-|I]; [vm_compute; split; discriminate|].
      revert I. generalize 309%nat. intros n. induction n as [|n IH]; [intros []|]. cbn. intros [<-|I]; auto.
      vm_compute. split; discriminate. }
    split; [discriminate|]. split; [exact D|]. split; [intros c []|]. split; [auto|vm_compute; reflexivity].
  - destruct L as [B N]. unfold number_text. destruct (Z.leb_spec 0 e) as [E|E].
    + destruct (whole_ok (N.pos p * 2 ^ Z.to_N e)) as (D & V & NE).
      exists (whole_text (N.pos p * 2 ^ Z.to_N e)), EmptyString.
      split; [exact NE|]. split; [exact D|]. split; [intros c []|]. split; [auto|].
      rewrite parse_whole by assumption. rewrite V. f_equal. apply exact_rounded; auto. now apply exact_whole.
    + assert (R : -1074 <= e) by apply B.
      set (k := Z.to_nat (- e)). set (m := (N.pos p * 5 ^ N.of_nat k)%N).
      destruct (whole_ok (m / 10 ^ N.of_nat k)) as (D & V & NE).
      exists (whole_text (m / 10 ^ N.of_nat k)), (low_digits k m).
      pose proof (low_digits_digits k m) as D'.
      split; [exact NE|]. split; [exact D|]. split; [exact D'|]. split.
      { right. split; [reflexivity|]. intros Z0. pose proof (low_digits_length k m) as LL. rewrite Z0 in LL. cbn in LL. lia. }
      rewrite parse_point by assumption. rewrite value_app, V, low_digits_value, low_digits_length.
      f_equal. apply exact_rounded; auto.
      replace (m / 10 ^ N.of_nat k * 10 ^ N.of_nat k + m mod 10 ^ N.of_nat k)%N with m.
      * unfold m, k. apply exact_fraction. lia.
      * rewrite (N.mul_comm (m / 10 ^ N.of_nat k)). apply N.div_mod. apply N.pow_nonzero. discriminate.
Qed.
