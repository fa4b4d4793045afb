(** The digits of a number are found, they are the shortest, and there are at most seventeen. *)
From Coq Require Import ZArith Lia DecimalString DecimalN Floats.SpecFloat.
From Verif Require Import Base F64 Token Ast Show SpecNumber SpecShow F64Facts NumberFacts RustText RustDigits SpecText StrFacts
  TextFacts TextNumber ShowFacts.
Import SpecNumber.

(** ** Decimal digits of an integer *)
Lemma acc_value d : forall acc, N.pos (Pos.of_uint_acc d acc) =
  (N.pos acc * 10 ^ N.of_nat (slen (NilEmpty.string_of_uint d)) + digits_value (NilEmpty.string_of_uint d))%N.
Proof.
  assert (X : forall c a k w,
    ((N_of_ascii c - 48 + 10 * a) * 10 ^ N.of_nat k + w = a * 10 ^ N.of_nat (S k) + ((N_of_ascii c - 48) * 10 ^ N.of_nat k + w))%N).
  { intros c a k w. rewrite Nat2N.inj_succ, N.pow_succ_r'. lia. }
  induction d; intros acc; cbn [Pos.of_uint_acc NilEmpty.string_of_uint digits_value]; [cbn; lia|..];
    rewrite IHd; unfold slen; cbn [String.length]; rewrite <- (X _ (N.pos acc)); reflexivity.
Qed.
Lemma uint_value d : N.of_uint d = digits_value (NilEmpty.string_of_uint d).
Proof.
  unfold N.of_uint. induction d; cbn [Pos.of_uint NilEmpty.string_of_uint digits_value]; try rewrite acc_value; try reflexivity.
  rewrite IHd. reflexivity.
Qed.
Lemma decimal_empty n : decimal n = NilEmpty.string_of_uint (N.to_uint n).
Proof.
  unfold decimal, NilZero.string_of_uint. destruct (N.to_uint n) eqn:E; auto.
  destruct n; cbn in E; [discriminate|]. now apply DecimalPos.Unsigned.to_uint_nonnil in E.
Qed.
Lemma decimal_value n : digits_value (decimal n) = n.
Proof. rewrite decimal_empty, <- uint_value. apply Unsigned.of_to. Qed.
Lemma nzhead_zero d : forall l, Decimal.nzhead d <> Decimal.D0 l.
Proof. induction d; cbn; auto; discriminate. Qed.
Lemma decimal_significant n : (0 < n)%N -> match decimal n with EmptyString => False | String c _ => c <> "0"%char end.
Proof.
  intros P. rewrite decimal_empty.
  assert (E : Decimal.unorm (N.to_uint n) = N.to_uint n) by (rewrite <- Unsigned.to_of, Unsigned.of_to; reflexivity).
  destruct (N.to_uint n) eqn:U; try (cbn; discriminate).
  unfold Decimal.unorm in E. destruct (Decimal.nzhead (Decimal.D0 u)) eqn:H; try discriminate E.
  - injection E as <-. assert (Z : n = 0%N) by (rewrite <- (Unsigned.of_to n), U; reflexivity). lia.
  - now apply nzhead_zero in H.
Qed.
Lemma decimal_digits n : digits (decimal n).
Proof.
  assert (X : forall d, digits (NilEmpty.string_of_uint d)).
  { assert (Y : forall c s, (48 <= N_of_ascii c <= 57)%N -> digits s -> digits (String c s))
      by (intros c s B D x [<-|I]; auto).
    induction d; cbn [NilEmpty.string_of_uint]; [intros c []|..];
      (apply Y; [vm_compute; split; discriminate|exact IHd]). }
  unfold decimal, NilZero.string_of_uint. destruct (N.to_uint n); try apply X.
  intros c [<-|[]]. vm_compute. split; discriminate.
Qed.

Local Open Scope Z_scope.
Notation val d := (Z.of_N (digits_value d)).
Notation len d := (Z.of_nat (slen d)).
Lemma pow10_pos a : 0 <= a -> 0 < 10 ^ a. Proof. intros. now apply Z.pow_pos_nonneg. Qed.
Lemma pow2_pos a : 0 <= a -> 0 < 2 ^ a. Proof. intros. now apply Z.pow_pos_nonneg. Qed.

Lemma value_cons c r : val (String c r) = (Z.of_N (N_of_ascii c - 48)) * 10 ^ len r + val r.
Proof.
  cbn [digits_value]. fold (slen r). rewrite N2Z.inj_add, N2Z.inj_mul, N2Z.inj_pow, nat_N_Z. reflexivity.
Qed.
Lemma value_high d : digits d -> 0 <= val d < 10 ^ len d.
Proof.
  induction d as [|c d IH]; intros D; [cbn; lia|]. rewrite value_cons.
  assert (B := D c (or_introl eq_refl)). destruct IH as [I1 I2]; [intros x I; apply D; now right|].
  assert (L : len (String c d) = len d + 1) by (unfold slen; cbn [String.length]; lia).
  rewrite L, Z.pow_add_r by lia. change (10 ^ 1) with 10.
  assert (0 <= Z.of_N (N_of_ascii c - 48) <= 9) by lia. pose proof (pow10_pos (len d)). nia.
Qed.
Lemma value_low d : significant d -> 10 ^ (len d - 1) <= val d /\ 1 <= len d.
Proof.
  intros [D N]. destruct d as [|c d]; [contradiction|]. rewrite value_cons.
  assert (B := D c (or_introl eq_refl)).
  destruct (value_high d) as [I1 I2]; [intros x I; apply D; now right|].
  assert (L : len (String c d) = len d + 1) by (unfold slen; cbn [String.length]; lia).
  rewrite L. replace (len d + 1 - 1) with (len d) by lia. split; [|lia].
  assert (C : (48 < N_of_ascii c)%N).
  { destruct (N.eq_dec (N_of_ascii c) 48) as [E|E]; [|lia]. exfalso. apply N.
    rewrite <- (ascii_N_embedding c), E. reflexivity. }
  assert (1 <= Z.of_N (N_of_ascii c - 48)) by lia. pose proof (pow10_pos (len d)). nia.
Qed.
Lemma strip_zeros d : exists j, d = String.append (strip d) (zeros j).
Proof.
  induction d as [|c d (j & IH)]; [now exists 0%nat|]. cbn [strip]. destruct (strip d) as [|a r] eqn:E.
  - cbn [String.append] in IH. destruct (Ascii.eqb_spec c "0"%char) as [->|N].
    + exists (S j). cbn. now rewrite <- IH.
    + exists j. cbn. now rewrite <- IH.
  - exists j. cbn. cbn in IH. now rewrite <- IH.
Qed.
Lemma strip_significant d : significant d -> significant (strip d).
Proof.
  intros [D N]. destruct (strip_zeros d) as (j & E). split.
  - rewrite E in D. now apply digits_inv in D.
  - destruct (strip d) as [|a r]; cbn in E.
    + subst d. destruct j; [contradiction|]. now destruct N.
    + subst d. exact N.
Qed.
Lemma strip_length d : len (strip d) <= len d.
Proof. destruct (strip_zeros d) as (j & E). rewrite E at 2. rewrite slen_append. lia. Qed.

(** A decimal as a fraction, with any powers of ten on both sides. *)
Lemma stands_iff d p m k A B : 0 <= A -> 0 <= B -> B - A = p - len d + Z.of_nat k ->
  stands d p m k <-> Z.of_N m * 10 ^ A = val d * 10 ^ B.
Proof.
  intros PA PB E. unfold stands. fold (slen d).
  set (a := Z.max 0 (len d - p)). set (b := Z.max 0 (p - len d) + Z.of_nat k).
  rewrite <- Z.mul_assoc, <- Z.pow_add_r by lia. fold b.
  assert (E' : b - a = B - A) by lia. assert (Pa : 0 <= a) by lia. assert (Pb : 0 <= b) by lia.
  clearbody a b. clear E.
  destruct (Z_le_gt_dec a A) as [L|L].
  - replace A with (a + (A - a)) by lia. replace B with (b + (A - a)) by lia. rewrite !Z.pow_add_r by lia.
    pose proof (pow10_pos (A - a)). split; intros H0; [rewrite !Z.mul_assoc, H0; ring|].
    apply (Z.mul_reg_r _ _ (10 ^ (A - a))); [lia|]. rewrite <- !Z.mul_assoc. exact H0.
  - replace a with (A + (a - A)) by lia. replace b with (B + (a - A)) by lia. rewrite !Z.pow_add_r by lia.
    pose proof (pow10_pos (a - A)). split; intros H0; [|rewrite !Z.mul_assoc, H0; ring].
    apply (Z.mul_reg_r _ _ (10 ^ (a - A))); [lia|]. rewrite <- !Z.mul_assoc. exact H0.
Qed.
Lemma stands_zeros a j p m k : stands (String.append a (zeros j)) p m k <-> stands a p m k.
Proof.
  assert (V : val (String.append a (zeros j)) = val a * 10 ^ Z.of_nat j).
  { rewrite value_app, zeros_value, zeros_length, N.add_0_r, N2Z.inj_mul, N2Z.inj_pow, nat_N_Z. reflexivity. }
  assert (L : len (String.append a (zeros j)) = len a + Z.of_nat j) by (rewrite slen_append, zeros_length; lia).
  set (A := Z.abs (p - len a + Z.of_nat k) + Z.of_nat j). set (B := A + (p - len a + Z.of_nat k) - Z.of_nat j).
  rewrite (stands_iff _ p m k A B) by lia. rewrite (stands_iff a p m k A (B + Z.of_nat j)) by lia.
  rewrite V, <- Z.mul_assoc, <- Z.pow_add_r by lia. now rewrite (Z.add_comm (Z.of_nat j)).
Qed.
Lemma stands_strip d p m k : stands (strip d) p m k <-> stands d p m k.
Proof. destruct (strip_zeros d) as (j & E). rewrite E at 2. symmetry. apply stands_zeros. Qed.

(** ** Around one number *)
Lemma strip_last d : strip d = EmptyString \/ val (strip d) mod 10 <> 0 \/ ~ digits d.
Proof.
  induction d as [|c d IH]; [now left|]. cbn [strip].
  destruct (strip d) as [|a r] eqn:E.
  - destruct (Ascii.eqb_spec c "0"%char) as [->|N]; [now left|]. right.
    destruct (N.le_gt_cases 48 (N_of_ascii c)) as [L|L]; [|right; intros D; specialize (D c (or_introl eq_refl)); lia].
    destruct (N.le_gt_cases (N_of_ascii c) 57) as [L'|L']; [|right; intros D; specialize (D c (or_introl eq_refl)); lia].
    left. rewrite value_cons. cbn [digits_value slen String.length Z.of_nat Z.of_N]. change (10 ^ 0) with 1.
    assert (NE : N_of_ascii c <> 48%N).
    { intros E48. apply N. rewrite <- (ascii_N_embedding c), E48. reflexivity. }
    rewrite Z.mul_1_r, Z.add_0_r, Z.mod_small; lia.
  - destruct IH as [IH|[IH|IH]]; [discriminate| |right; right; intros D; apply IH; intros x0 I; apply D; now right].
    right. left. rewrite value_cons.
    assert (L : len (String a r) = len r + 1) by (unfold slen; cbn [String.length]; lia).
    rewrite L, Z.pow_add_r by lia. change (10 ^ 1) with 10. rewrite Z.mul_assoc, Z.add_comm, Z.mod_add by lia. exact IH.
Qed.
Lemma strip_power j : 0 <= j -> slen (strip (decimal (Z.to_N (10 ^ j)))) = 1%nat.
Proof.
  intros Pj. pose proof (pow10_pos j Pj) as P10. set (t := decimal (Z.to_N (10 ^ j))).
  assert (Sg : significant t) by (split; [apply decimal_digits|apply decimal_significant; lia]).
  assert (V : val t = 10 ^ j) by (unfold t; rewrite decimal_value, Z2N.id; lia).
  assert (Ss := strip_significant t Sg). destruct (strip_zeros t) as (z & E).
  assert (VZ : val t = val (strip t) * 10 ^ Z.of_nat z).
  { rewrite E at 1. rewrite value_app, zeros_value, zeros_length, N.add_0_r, N2Z.inj_mul, N2Z.inj_pow, nat_N_Z. reflexivity. }
  destruct (value_low _ Ss) as [L1 L2].
  destruct (strip_last t) as [S0|[S0|S0]]; [rewrite S0 in L2; cbn in L2; lia| |now destruct S0; apply Sg].
  rewrite V in VZ. assert (PZ : 0 < 10 ^ Z.of_nat z) by (apply pow10_pos; lia).
  assert (PVs : 0 < val (strip t)) by nia.
  assert (J : j = Z.of_nat z).
  { destruct (Z.lt_trichotomy j (Z.of_nat z)) as [C|[C|C]]; auto; exfalso.
    - assert (10 ^ j < 10 ^ Z.of_nat z) by (apply Z.pow_lt_mono_r; lia). nia.
    - replace j with (j - Z.of_nat z - 1 + 1 + Z.of_nat z) in VZ by lia. rewrite !Z.pow_add_r in VZ by lia.
      apply Z.mul_reg_r in VZ; [|lia]. change (10 ^ 1) with 10 in VZ. rewrite <- VZ, Z.mod_mul in S0 by lia. congruence. }
  rewrite <- J in VZ. assert (V1 : val (strip t) = 1) by nia. rewrite V1 in L1.
  destruct (Z.le_gt_cases (len (strip t)) 1) as [C|C]; [lia|]. exfalso.
  assert (10 ^ 1 <= 10 ^ (len (strip t) - 1)) by (apply Z.pow_le_mono_r; lia). change (10 ^ 1) with 10 in *. lia.
Qed.

Section Number.
Variables (m : positive) (e : Z).
Hypothesis B64 : binary64 (Zpos m) e.
Hypothesis Canon : 2 ^ 52 <= Zpos m \/ e = -1074.
Notation x := (S754_finite false m e).
Notation W := (2 ^ 1074).
Definition X : Z := Zpos m * 2 ^ (e + 1074).
Lemma X_pos : 0 < X.
Proof. unfold X. destruct B64. pose proof (pow2_pos (e + 1074)). nia. Qed.
Lemma denom_pos : 0 < denom e. Proof. apply pow2_pos. lia. Qed.
Lemma numer_eq : numer m e * W = X * denom e.
Proof.
  destruct B64. unfold numer, denom, X. rewrite <- !Z.mul_assoc, <- !Z.pow_add_r by lia. do 2 f_equal. lia.
Qed.
Lemma floor_spec s K : 0 <= K -> s <= K ->
  0 <= floor10 m e s /\
  floor10 m e s * 10 ^ (K - s) * W <= X * 10 ^ K < (floor10 m e s + 1) * 10 ^ (K - s) * W.
Proof.
  intros PK LK. unfold floor10. set (A := numer m e * 10 ^ Z.max 0 s). set (B := denom e * 10 ^ Z.max 0 (- s)).
  assert (PB : 0 < B) by (apply Z.mul_pos_pos; [apply denom_pos|apply pow10_pos; lia]).
  assert (PN : 0 < numer m e) by (unfold numer; pose proof (pow2_pos (Z.max 0 e)); nia).
  assert (PA : 0 <= A) by (apply Z.mul_nonneg_nonneg; [lia|apply Z.pow_nonneg; lia]).
  pose proof (Z.mul_div_le A B PB) as L1. pose proof (Z.mul_succ_div_gt A B PB) as L2.
  pose proof (Z.div_pos A B PA PB) as P0. set (F := A / B) in *. clearbody F. split; [exact P0|].
  assert (PW : 0 < W) by (apply pow2_pos; lia). pose proof denom_pos as PD.
  set (t := K - Z.max 0 s). assert (PT : 0 < 10 ^ t) by (apply pow10_pos; lia).
  assert (E1 : A * (10 ^ t * W) = X * 10 ^ K * denom e).
  { unfold A. replace (numer m e * 10 ^ Z.max 0 s * (10 ^ t * W)) with (numer m e * W * (10 ^ Z.max 0 s * 10 ^ t)) by ring.
    rewrite numer_eq, <- Z.pow_add_r by lia. replace (Z.max 0 s + t) with K by lia. ring. }
  assert (E2 : B * (10 ^ t * W) = 10 ^ (K - s) * W * denom e).
  { unfold B. replace (denom e * 10 ^ Z.max 0 (- s) * (10 ^ t * W)) with (10 ^ Z.max 0 (- s) * 10 ^ t * W * denom e) by ring.
    rewrite <- Z.pow_add_r by lia. replace (Z.max 0 (- s) + t) with (K - s) by lia. ring. }
  assert (PTW : 0 < 10 ^ t * W) by nia.
  set (q := 10 ^ t * W) in *. set (D := denom e) in *. set (U := 10 ^ (K - s) * W) in *. set (Y := X * 10 ^ K) in *.
  replace (F * 10 ^ (K - s) * W) with (F * U) by (unfold U; ring).
  replace ((F + 1) * 10 ^ (K - s) * W) with ((F + 1) * U) by (unfold U; ring).
  clearbody q D U Y A B. split.
  - apply (Z.mul_le_mono_pos_r _ _ D PD). rewrite <- E1. rewrite <- Z.mul_assoc, <- E2. rewrite Z.mul_assoc.
    apply Z.mul_le_mono_nonneg_r; lia.
  - apply (Z.mul_lt_mono_pos_r D); [exact PD|]. rewrite <- E1. rewrite <- Z.mul_assoc, <- E2. rewrite Z.mul_assoc.
    apply Z.mul_lt_mono_pos_r; lia.
Qed.
Lemma decade_spec K : 0 <= K -> 0 <= K + decade m e - 1 ->
  10 ^ (K + decade m e - 1) * W <= X * 10 ^ K < 10 ^ (K + decade m e) * W.
Proof.
  intros PK LK. unfold decade in *. destruct (floor_spec 400 (K + 400)) as (P0 & L1 & L2); try lia.
  replace (K + 400 - 400) with K in * by lia.
  destruct (floor_spec 400 400) as (_ & _ & L3); try lia. rewrite Z.sub_diag in L3. change (10 ^ 0) with 1 in L3.
  set (F := floor10 m e 400) in *.
  assert (PF : 0 < F).
  { destruct (Z.eq_dec F 0) as [Z0|]; [|lia]. exfalso. rewrite Z0 in L3. pose proof X_pos.
    assert (W <= 10 ^ 400) by (apply Z.leb_le; vm_compute; reflexivity). 
    assert (10 ^ 400 <= X * 10 ^ 400) by (pose proof (pow10_pos 400); nia). lia. }
  assert (Sg : significant (decimal (Z.to_N F))) by (split; [apply decimal_digits|apply decimal_significant; lia]).
  destruct (value_low _ Sg) as [V1 V2]. destruct (value_high _ (proj1 Sg)) as [_ V3].
  rewrite decimal_value, Z2N.id in V1, V3 by lia.
  set (L := len (decimal (Z.to_N F))) in *. clearbody L. clear Sg.
  assert (PW : 0 < W) by (apply pow2_pos; lia). assert (P4 : 0 < 10 ^ 400) by (apply pow10_pos; lia).
  rewrite Z.pow_add_r, Z.mul_assoc in L1, L2 by lia. pose proof (pow10_pos K PK) as PT.
  split.
  - apply (Z.mul_le_mono_pos_r _ _ (10 ^ 400) P4). eapply Z.le_trans; [|exact L1].
    replace (10 ^ (K + (L - 400) - 1) * W * 10 ^ 400) with (10 ^ (K + (L - 400) - 1) * 10 ^ 400 * W) by ring.
    rewrite <- Z.pow_add_r by lia. replace (K + (L - 400) - 1 + 400) with ((L - 1) + K) by lia.
    rewrite Z.pow_add_r by lia. apply Z.mul_le_mono_nonneg_r; [lia|]. apply Z.mul_le_mono_nonneg_r; lia.
  - apply (Z.mul_lt_mono_pos_r (10 ^ 400)); [exact P4|]. eapply Z.lt_le_trans; [exact L2|].
    replace (10 ^ (K + (L - 400)) * W * 10 ^ 400) with (10 ^ (K + (L - 400)) * 10 ^ 400 * W) by ring.
    rewrite <- Z.pow_add_r by lia. replace (K + (L - 400) + 400) with (L + K) by lia.
    rewrite Z.pow_add_r by lia. apply Z.mul_le_mono_nonneg_r; [lia|]. apply Z.mul_le_mono_nonneg_r; lia.
Qed.

(** [M / 10^K] reads as the number. *)
Definition R (K M : Z) : Prop := rounded (Z.to_N M) (Z.to_nat K) x.
Lemma gap_at K M q g : 0 <= K -> 0 <= M -> gap (Z.to_N M) (Z.to_nat K) q g = Z.abs (q * 2 ^ (g + 1074) * 10 ^ K - M * W).
Proof. intros PK PM. unfold gap. now rewrite Z2N.id, Z2Nat.id by lia. Qed.

Lemma closer_below K M M' : 0 <= K -> 0 <= M -> M <= M' -> M' * W <= X * 10 ^ K -> R K M -> R K M'.
Proof.
  intros PK PM L L' (_ & _ & O & N). split; [exact B64|]. split; [exact Canon|]. split.
  - destruct B64 as [Bm Be]. unfold overflows in *. rewrite Z2N.id, Z2Nat.id in * by lia. intros O'.
    assert (XM : X <= (2 ^ 53 - 1) * 2 ^ (971 + 1074)).
    { unfold X. apply Z.mul_le_mono_nonneg; try lia. apply Z.pow_le_mono_r; lia. }
    change (971 + 1074) with (971 + 1074) in XM. rewrite Z.pow_add_r in XM by lia.
    change 971 with (970 + 1) in XM. rewrite (Z.pow_add_r 2 970 1) in XM by lia. change (2 ^ 1) with 2 in XM.
    set (T := 10 ^ K) in *. assert (PT : 0 < T) by (apply pow10_pos; lia).
    set (H := 2 ^ 970) in *. assert (PH : 0 < H) by (apply pow2_pos; lia).
    set (V := W) in *. assert (PV : 0 < V) by (apply pow2_pos; lia).
    assert (A1 : (2 ^ 54 - 1) * H * T * V <= M' * V) by (apply Z.mul_le_mono_nonneg_r; lia).
    assert (A2 : X * T <= (2 ^ 53 - 1) * (H * 2 * V) * T) by (apply Z.mul_le_mono_nonneg_r; lia).
    replace ((2 ^ 53 - 1) * (H * 2 * V) * T) with ((2 ^ 54 - 2) * (H * T * V)) in A2 by ring.
    replace ((2 ^ 54 - 1) * H * T * V) with ((2 ^ 54 - 1) * (H * T * V)) in A1 by ring.
    assert (0 < H * T * V) by (apply Z.mul_pos_pos; [apply Z.mul_pos_pos|]; assumption).
    set (G := H * T * V) in *. clearbody G. lia.
  - intros q g Bq. destruct (N q g Bq) as [N1 N2]. rewrite !gap_at in * by lia. fold X in *.
    pose proof (pow10_pos K PK) as PT. assert (PW : 0 < W) by (apply pow2_pos; lia).
    set (T := 10 ^ K) in *. set (V := W) in *. set (Y := q * 2 ^ (g + 1074)) in *.
    assert (MV : M * V <= M' * V) by (apply Z.mul_le_mono_nonneg_r; lia).
    assert (XY : X <= Y -> X * T <= Y * T) by (intros; apply Z.mul_le_mono_nonneg_r; lia).
    assert (YX : Y < X -> Y * T < X * T) by (intros; apply Z.mul_lt_mono_pos_r; lia).
    assert (XYs : X < Y -> X * T < Y * T) by (intros; apply Z.mul_lt_mono_pos_r; lia).
    set (xt := X * T) in *. set (yt := Y * T) in *. set (mv := M * V) in *. set (mv' := M' * V) in *.
    clearbody Y. clearbody xt yt mv mv'. split; [lia|].
    intros E. destruct (Z.lt_trichotomy Y X) as [C|[C|C]]; [|now left|lia]. apply N2. lia.
Qed.
Lemma closer_above K M M' : 0 <= K -> 0 <= M' -> M' <= M -> X * 10 ^ K <= M' * W -> R K M -> R K M'.
Proof.
  intros PK PM L L' (_ & _ & O & N). split; [exact B64|]. split; [exact Canon|]. split.
  - unfold overflows in *. rewrite Z2N.id, Z2Nat.id in * by lia. lia.
  - intros q g Bq. destruct (N q g Bq) as [N1 N2]. rewrite !gap_at in * by lia. fold X in *.
    pose proof (pow10_pos K PK) as PT. assert (PW : 0 < W) by (apply pow2_pos; lia).
    set (T := 10 ^ K) in *. set (V := W) in *. set (Y := q * 2 ^ (g + 1074)) in *.
    assert (MV : M' * V <= M * V) by (apply Z.mul_le_mono_nonneg_r; lia).
    assert (YX : Y <= X -> Y * T <= X * T) by (intros; apply Z.mul_le_mono_nonneg_r; lia).
    assert (XYs : X < Y -> X * T < Y * T) by (intros; apply Z.mul_lt_mono_pos_r; lia).
    assert (YXs : Y < X -> Y * T < X * T) by (intros; apply Z.mul_lt_mono_pos_r; lia).
    set (xt := X * T) in *. set (yt := Y * T) in *. set (mv := M * V) in *. set (mv' := M' * V) in *.
    clearbody Y. clearbody xt yt mv mv'. split; [lia|].
    intros E. destruct (Z.lt_trichotomy Y X) as [C|[C|C]]; [lia|now left|]. apply N2. lia.
Qed.
(** Other numbers are further away than one part in [10^16]. *)
Lemma apart q g : binary64 q g -> q * 2 ^ (g + 1074) <> X -> X < Z.abs (q * 2 ^ (g + 1074) - X) * 10 ^ 16.
Proof.
  intros [Bq Bg] NE. destruct B64 as [Bm Be]. unfold X in *. change (10 ^ 16) with 10000000000000000.
  change (2 ^ 53) with 9007199254740992 in *. change (2 ^ 52) with 4503599627370496 in *.
  destruct (Z_le_gt_dec e g) as [L|L].
  - assert (EG : 2 ^ (g + 1074) = 2 ^ (g - e) * 2 ^ (e + 1074)) by (rewrite <- Z.pow_add_r by lia; f_equal; lia).
    rewrite EG in *. clear EG.
    pose proof (pow2_pos (e + 1074) ltac:(lia)) as PU. set (U := 2 ^ (e + 1074)) in *.
    set (Q := 2 ^ (g - e)) in *. clearbody U Q.
    replace (q * (Q * U) - Zpos m * U) with ((q * Q - Zpos m) * U) by ring. rewrite Z.abs_mul, (Z.abs_eq U) by lia.
    assert (1 <= Z.abs (q * Q - Zpos m)) by (assert (q * Q <> Zpos m) by (intros E; apply NE; rewrite Z.mul_assoc; now rewrite E); lia).
    assert (U <= Z.abs (q * Q - Zpos m) * U) by nia. nia.
  - assert (M52 : 4503599627370496 <= Zpos m) by lia.
    assert (E : 2 ^ (e + 1074) = 2 * 2 ^ (e - 1 + 1074)).
    { replace (e + 1074) with (1 + (e - 1 + 1074)) by lia. rewrite Z.pow_add_r by lia. reflexivity. }
    rewrite E in *. pose proof (pow2_pos (e - 1 + 1074) ltac:(lia)) as PU. set (U := 2 ^ (e - 1 + 1074)) in *.
    assert (LU : 2 ^ (g + 1074) <= U) by (apply Z.pow_le_mono_r; lia).
    pose proof (pow2_pos (g + 1074) ltac:(lia)) as PG. set (V := 2 ^ (g + 1074)) in *. clearbody U V.
    assert (Y : q * V <= 9007199254740991 * U) by nia.
    set (Yq := q * V) in *. clearbody Yq. clear E NE Bq. nia.
Qed.
Lemma near_enough K M : 0 <= K -> 0 <= M -> 2 * 10 ^ 16 * Z.abs (X * 10 ^ K - M * W) <= X * 10 ^ K -> R K M.
Proof.
  intros PK PM NE. split; [exact B64|]. split; [exact Canon|].
  pose proof (pow10_pos K PK) as PT. assert (PW : 0 < W) by (apply pow2_pos; lia). pose proof X_pos as PX. split.
  - unfold overflows. rewrite Z2N.id, Z2Nat.id by lia. intros O. destruct B64 as [Bm Be].
    assert (XM : X <= (2 ^ 53 - 1) * 2 ^ (971 + 1074)).
    { unfold X. apply Z.mul_le_mono_nonneg; try lia. apply Z.pow_le_mono_r; lia. }
    rewrite Z.pow_add_r in XM by lia.
    change 971 with (970 + 1) in XM. rewrite (Z.pow_add_r 2 970 1) in XM by lia. change (2 ^ 1) with 2 in XM.
    set (T := 10 ^ K) in *. set (H := 2 ^ 970) in *. assert (PH : 0 < H) by (apply pow2_pos; lia). set (V := W) in *.
    assert (A1 : (2 ^ 54 - 1) * H * T * V <= M * V) by (apply Z.mul_le_mono_nonneg_r; lia).
    assert (A2 : X * T <= (2 ^ 53 - 1) * (H * 2 * V) * T) by (apply Z.mul_le_mono_nonneg_r; lia).
    replace ((2 ^ 53 - 1) * (H * 2 * V) * T) with ((2 ^ 54 - 2) * (H * T * V)) in A2 by ring.
    replace ((2 ^ 54 - 1) * H * T * V) with ((2 ^ 54 - 1) * (H * T * V)) in A1 by ring.
    assert (0 < H * T * V) by (apply Z.mul_pos_pos; [apply Z.mul_pos_pos|]; assumption).
    set (G := H * T * V) in *. clearbody G. set (xt := X * T) in *. set (mv := M * V) in *. clearbody xt mv.
    change (2 ^ 54) with 18014398509481984 in *. change (10 ^ 16) with 10000000000000000 in *. lia.
  - intros q g Bq. rewrite !gap_at by lia. fold X.
    destruct (Z.eq_dec (q * 2 ^ (g + 1074)) X) as [E|E]; [rewrite E; split; [lia|now left]|].
    pose proof (apart q g Bq E) as AP. set (Y := q * 2 ^ (g + 1074)) in *. set (T := 10 ^ K) in *.
    assert (AT : X * T < Z.abs (Y * T - X * T) * 10 ^ 16).
    { replace (Y * T - X * T) with ((Y - X) * T) by ring. rewrite Z.abs_mul, (Z.abs_eq T) by lia.
      replace (Z.abs (Y - X) * T * 10 ^ 16) with (Z.abs (Y - X) * 10 ^ 16 * T) by ring.
      apply Z.mul_lt_mono_pos_r; lia. }
    set (xt := X * T) in *. set (yt := Y * T) in *. set (mv := M * W) in *. clearbody xt yt mv.
    change (10 ^ 16) with 10000000000000000 in *. split; [lia|]. intros G. exfalso. lia.
Qed.

(** ** The test *)
Lemma reads_back_iff c s K : 0 <= c -> 0 <= K -> s <= K -> reads_back m e c s = true <-> R K (c * 10 ^ (K - s)).
Proof.
  intros PC PK LK. unfold reads_back.
  set (N := Z.to_N (c * 10 ^ Z.max 0 (- s))). set (k := Z.to_nat (Z.max 0 s)).
  assert (RA : Z.of_N N * 10 ^ Z.of_nat (Z.to_nat K) = Z.of_N (Z.to_N (c * 10 ^ (K - s))) * 10 ^ Z.of_nat k).
  { unfold N, k. pose proof (pow10_pos (Z.max 0 (- s)) ltac:(lia)). pose proof (pow10_pos (K - s) ltac:(lia)).
    rewrite !Z2N.id, !Z2Nat.id by nia. rewrite <- !Z.mul_assoc, <- !Z.pow_add_r by lia. do 2 f_equal. lia. }
  pose proof (round_decimal_correct N k) as C.
  assert (Eq : R K (c * 10 ^ (K - s)) <-> round_decimal N k = x).
  { unfold R. split; intros H.
    - eapply rounded_unique; [exact C|]. eapply rounded_ratio; [|exact H]. now symmetry.
    - rewrite <- H. eapply rounded_ratio; [|exact C]. exact RA. }
  rewrite Eq. clear. destruct (round_decimal N k) as [[]|[]| |[] m' e']; try (split; discriminate).
  split.
  - intros H. apply andb_prop in H. destruct H as [A B]. apply Pos.eqb_eq in A. apply Z.eqb_eq in B. congruence.
  - intros H. injection H as -> ->. now rewrite Pos.eqb_refl, Z.eqb_refl.
Qed.

(** ** The two candidates with [n] digits *)
Notation p := (decade m e).
Definition lo (n : Z) : Z := floor10 m e (n - p).
Lemma lo_spec n K : 0 <= K -> n - p <= K -> 1 <= n ->
  10 ^ (n - 1) <= lo n < 10 ^ n /\
  lo n * 10 ^ (K + p - n) * W <= X * 10 ^ K < (lo n + 1) * 10 ^ (K + p - n) * W.
Proof.
  intros PK LK Pn. destruct (floor_spec (n - p) K) as (P0 & L1 & L2); try lia. fold (lo n) in *.
  replace (K - (n - p)) with (K + p - n) in * by lia. split; [|split; assumption].
  destruct (decade_spec K) as [D1 D2]; try lia.
  replace (K + p - 1) with ((n - 1) + (K + p - n)) in D1 by lia.
  replace (K + p) with (n + (K + p - n)) in D2 by lia.
  rewrite Z.pow_add_r in D1, D2 by lia.
  pose proof (pow10_pos (K + p - n) ltac:(lia)) as PU. assert (PW : 0 < W) by (apply pow2_pos; lia).
  set (U := 10 ^ (K + p - n)) in *. set (V := W) in *. assert (PUV : 0 < U * V) by nia.
  rewrite <- !Z.mul_assoc in *. set (u := U * V) in *. set (xt := X * 10 ^ K) in *. clearbody u xt. nia.
Qed.
Definition works (n c : Z) : Prop := reads_back m e c (n - p) = true.

(** Digits that read as the number are no nearer than one of the candidates, which then works as well. *)
Lemma candidates d' p' : significant d' -> reads_as x d' p' ->
  let n := len d' in
  forall K, 0 <= K -> n - p <= K -> n - p' <= K ->
  let M' := val d' * 10 ^ (K + p' - n) in let U := 10 ^ (K + p - n) in
  (M' * W <= X * 10 ^ K -> M' <= lo n * U /\ works n (lo n)) /\
  (X * 10 ^ K < M' * W -> (lo n + 1) * U <= M' /\ works n (lo n + 1)).
Proof.
  intros Sg RD n K PK L1 L2 M' U. destruct (value_low d' Sg) as [V1 Pn]. destruct (value_high d' (proj1 Sg)) as [_ V2].
  fold n in V1, V2, Pn. destruct (lo_spec n K PK L1 Pn) as ((B1 & B2) & F1 & F2).
  pose proof (pow10_pos (K + p - n) ltac:(lia)) as PU. fold U in F1, F2, PU.
  pose proof (pow10_pos (K + p' - n) ltac:(lia)) as PU'. assert (PW : 0 < W) by (apply pow2_pos; lia).
  assert (PV : 0 < val d') by (pose proof (pow10_pos (n - 1) ltac:(lia)); lia).
  assert (PM : 0 < M') by (apply Z.mul_pos_pos; assumption).
  assert (RM : R K M').
  { unfold R. eapply reads_rounded; [exact RD|]. apply (stands_iff d' p' _ _ 0 (K + p' - n)); fold n; try lia. }
  assert (Wk : forall c, 0 <= c -> works n c <-> R K (c * U)).
  { intros c Pc. unfold works. rewrite (reads_back_iff c (n - p) K) by lia.
    now replace (K - (n - p)) with (K + p - n) by lia. }
  assert (Pl : 0 < lo n) by (pose proof (pow10_pos (n - 1) ltac:(lia)); lia).
  (* multiples of the unit *)
  assert (Mult : p <= p' -> exists h, M' = h * U).
  { intros LP. exists (val d' * 10 ^ (p' - p)). unfold M', U. rewrite <- Z.mul_assoc, <- Z.pow_add_r by lia. do 2 f_equal. lia. }
  assert (Dec : p' < p -> M' < 10 ^ (n - 1) * U).
  { intros LP. unfold M', U. rewrite <- Z.pow_add_r by lia.
    apply Z.lt_le_trans with (10 ^ n * 10 ^ (K + p' - n)); [apply Z.mul_lt_mono_pos_r; lia|].
    rewrite <- Z.pow_add_r by lia. apply Z.pow_le_mono_r; lia. }
  set (V := W) in *. set (xt := X * 10 ^ K) in *.
  split; intros H.
  - assert (LE : M' <= lo n * U).
    { destruct (Z_le_gt_dec p p') as [LP|LP].
      - destruct (Mult LP) as (h & E). rewrite E in *. apply Z.mul_le_mono_nonneg_r; [lia|].
        assert (h * U * V < (lo n + 1) * U * V) by lia. rewrite <- !Z.mul_assoc in H0.
        assert (PUV : 0 < U * V) by nia. apply Z.mul_lt_mono_pos_r in H0; lia.
      - specialize (Dec ltac:(lia)). assert (10 ^ (n - 1) * U <= lo n * U) by (apply Z.mul_le_mono_nonneg_r; lia). lia. }
    split; [exact LE|]. apply Wk; [lia|]. apply closer_below with M'; auto; lia.
  - assert (LP : p <= p').
    { destruct (Z_le_gt_dec p p') as [LP|LP]; auto. exfalso. specialize (Dec ltac:(lia)).
      assert (10 ^ (n - 1) * U <= lo n * U) by (apply Z.mul_le_mono_nonneg_r; lia).
      assert (M' * V <= lo n * U * V) by (apply Z.mul_le_mono_nonneg_r; lia). lia. }
    assert (LE : (lo n + 1) * U <= M').
    { destruct (Mult LP) as (h & E). rewrite E in *. apply Z.mul_le_mono_nonneg_r; [lia|].
      assert (lo n * U * V < h * U * V) by lia. rewrite <- !Z.mul_assoc in H0.
      assert (PUV : 0 < U * V) by nia. apply Z.mul_lt_mono_pos_r in H0; lia. }
    split; [exact LE|]. apply Wk; [lia|]. apply closer_above with M'; auto; lia.
Qed.

(** ** Seventeen digits *)
Lemma seventeen : works 17 (lo 17) \/ works 17 (lo 17 + 1).
Proof.
  set (K := Z.max 0 (17 - p)). assert (PK : 0 <= K) by lia. assert (LK : 17 - p <= K) by lia. clearbody K.
  destruct (lo_spec 17 K PK LK ltac:(lia)) as ((B1 & B2) & F1 & F2).
  pose proof (pow10_pos (K + p - 17) ltac:(lia)) as PU. assert (PW : 0 < W) by (apply pow2_pos; lia).
  assert (Wk : forall c, 0 <= c -> R K (c * 10 ^ (K + p - 17)) -> works 17 c).
  { intros c Pc H. unfold works. rewrite (reads_back_iff c (17 - p) K) by lia.
    now replace (K - (17 - p)) with (K + p - 17) by lia. }
  set (U := 10 ^ (K + p - 17)) in *. change (17 - 1) with 16 in B1.
  assert (Pl : 0 < 10 ^ 16) by (apply pow10_pos; lia).
  assert (XL : 10 ^ 16 * (U * W) <= X * 10 ^ K).
  { eapply Z.le_trans; [|exact F1]. rewrite <- Z.mul_assoc. apply Z.mul_le_mono_nonneg_r; nia. }
  replace ((lo 17 + 1) * U * W) with (lo 17 * U * W + U * W) in F2 by ring.
  assert (PUW : 0 < U * W) by nia.
  assert (PL : 0 <= lo 17 * U) by (apply Z.mul_nonneg_nonneg; lia).
  destruct (Z_le_gt_dec (2 * (X * 10 ^ K)) (2 * (lo 17 * U * W) + U * W)) as [L|L].
  - left. apply Wk; [lia|]. apply near_enough; auto.
    set (xt := X * 10 ^ K) in *. set (a := lo 17 * U * W) in *. set (b := U * W) in *. clearbody xt a b.
    change (10 ^ 16) with 10000000000000000 in *. lia.
  - right. apply Wk; [lia|]. apply near_enough; [exact PK|nia|].
    replace ((lo 17 + 1) * U * W) with (lo 17 * U * W + U * W) by ring.
    set (xt := X * 10 ^ K) in *. set (a := lo 17 * U * W) in *. set (b := U * W) in *. clearbody xt a b.
    change (10 ^ 16) with 10000000000000000 in *. lia.
Qed.

(** ** The search *)
Lemma scaled s K h : 0 <= K -> s <= K ->
  (2 * (numer m e * 10 ^ Z.max 0 s) < h * (denom e * 10 ^ Z.max 0 (- s)) <-> 2 * (X * 10 ^ K) < h * (10 ^ (K - s) * W)) /\
  (h * (denom e * 10 ^ Z.max 0 (- s)) < 2 * (numer m e * 10 ^ Z.max 0 s) <-> h * (10 ^ (K - s) * W) < 2 * (X * 10 ^ K)).
Proof.
  intros PK LK. set (A := numer m e * 10 ^ Z.max 0 s). set (B := denom e * 10 ^ Z.max 0 (- s)).
  assert (PW : 0 < W) by (apply pow2_pos; lia). pose proof denom_pos as PD.
  set (t := K - Z.max 0 s). assert (PT : 0 < 10 ^ t) by (apply pow10_pos; lia).
  assert (E1 : A * (10 ^ t * W) = X * 10 ^ K * denom e).
  { unfold A. replace (numer m e * 10 ^ Z.max 0 s * (10 ^ t * W)) with (numer m e * W * (10 ^ Z.max 0 s * 10 ^ t)) by ring.
    rewrite numer_eq, <- Z.pow_add_r by lia. replace (Z.max 0 s + t) with K by lia. ring. }
  assert (E2 : B * (10 ^ t * W) = 10 ^ (K - s) * W * denom e).
  { unfold B. replace (denom e * 10 ^ Z.max 0 (- s) * (10 ^ t * W)) with (10 ^ Z.max 0 (- s) * 10 ^ t * W * denom e) by ring.
    rewrite <- Z.pow_add_r by lia. replace (Z.max 0 (- s) + t) with (K - s) by lia. ring. }
  assert (PTW : 0 < 10 ^ t * W) by nia.
  set (q := 10 ^ t * W) in *. set (D := denom e) in *. set (U := 10 ^ (K - s) * W) in *. set (Y := X * 10 ^ K) in *.
  clearbody q D U Y A B.
  assert (F1 : 2 * A * q = 2 * Y * D) by (rewrite <- !Z.mul_assoc; now rewrite E1).
  assert (F2 : h * B * q = h * U * D) by (rewrite <- !Z.mul_assoc; now rewrite E2).
  rewrite (Z.mul_lt_mono_pos_r q (2 * A) (h * B) PTW), (Z.mul_lt_mono_pos_r D (2 * Y) (h * U) PD), F1, F2.
  rewrite (Z.mul_lt_mono_pos_r q (h * B) (2 * A) PTW), (Z.mul_lt_mono_pos_r D (h * U) (2 * Y) PD), F1, F2.
  tauto.
Qed.
(** The candidate [c] with [n] digits is the best. *)
Definition best (n c : Z) : Prop :=
  (c = lo n \/ c = lo n + 1) /\ works n c /\
  forall K c', 0 <= K -> n - p <= K -> (c' = lo n \/ c' = lo n + 1) -> works n c' ->
    Z.abs (X * 10 ^ K - c * 10 ^ (K + p - n) * W) <= Z.abs (X * 10 ^ K - c' * 10 ^ (K + p - n) * W).
Lemma search_spec up : forall k n f, 1 <= n -> search up m e k n = Some f ->
  exists j c, n <= j < n + Z.of_nat k /\ (forall i, n <= i < j -> ~ works i (lo i) /\ ~ works i (lo i + 1)) /\
    f = digits_of c (j - p) /\ best j c.
Proof.
  induction k as [|k IH]; intros n f Pn H; [discriminate|]. cbn [search] in H. fold (lo n) in H.
  assert (Alone : forall c c', (c = lo n /\ c' = lo n + 1 \/ c = lo n + 1 /\ c' = lo n) ->
    reads_back m e c (n - p) = true -> reads_back m e c' (n - p) = false -> best n c).
  { intros c c' CC H1 H2. split; [intuition|]. split; [exact H1|]. intros K d _ _ Hd Wd. unfold works in Wd.
    destruct CC as [[-> ->]|[-> ->]], Hd as [->| ->]; try congruence; lia. }
  assert (Here : forall c, Some (digits_of c (n - p)) = Some f -> best n c ->
    exists j c, n <= j < n + Z.of_nat (S k) /\ (forall i, n <= i < j -> ~ works i (lo i) /\ ~ works i (lo i + 1)) /\
      f = digits_of c (j - p) /\ best j c).
  { intros c E B. injection E as <-. exists n, c. split; [lia|]. split; [intros; lia|]. auto. }
  destruct (reads_back m e (lo n) (n - p)) eqn:R1, (reads_back m e (lo n + 1) (n - p)) eqn:R2.
  - eapply Here; [exact H|]. clear Here Alone H IH.
    set (lt := 2 * (numer m e * 10 ^ Z.max 0 (n - p)) <? (lo n + (lo n + 1)) * (denom e * 10 ^ Z.max 0 (- (n - p)))).
    set (gt := (lo n + (lo n + 1)) * (denom e * 10 ^ Z.max 0 (- (n - p))) <? 2 * (numer m e * 10 ^ Z.max 0 (n - p))).
    assert (LT : lt = Z.ltb (2 * (numer m e * 10 ^ Z.max 0 (n - p))) ((lo n + (lo n + 1)) * (denom e * 10 ^ Z.max 0 (- (n - p))))) by reflexivity.
    assert (GT : gt = Z.ltb ((lo n + (lo n + 1)) * (denom e * 10 ^ Z.max 0 (- (n - p)))) (2 * (numer m e * 10 ^ Z.max 0 (n - p)))) by reflexivity.
    clearbody lt gt.
    split; [destruct lt, gt, up; auto|]. split; [unfold works; destruct lt, gt, up; auto|].
    intros K c' PK LK Hc' _. destruct (scaled (n - p) K (lo n + (lo n + 1)) PK LK) as [C1 C2].
    replace (K - (n - p)) with (K + p - n) in C1, C2 by lia.
    destruct (lo_spec n K PK LK Pn) as (_ & F1 & F2).
    replace ((lo n + 1) * 10 ^ (K + p - n) * W) with (lo n * 10 ^ (K + p - n) * W + 10 ^ (K + p - n) * W) in F2 by ring.
    replace ((lo n + (lo n + 1)) * (10 ^ (K + p - n) * W)) with (2 * (lo n * 10 ^ (K + p - n) * W) + 10 ^ (K + p - n) * W) in C1, C2 by ring.
    assert (HI : (lo n + 1) * 10 ^ (K + p - n) * W = lo n * 10 ^ (K + p - n) * W + 10 ^ (K + p - n) * W) by ring.
    set (xt := X * 10 ^ K) in *. set (a := lo n * 10 ^ (K + p - n) * W) in *. set (u := 10 ^ (K + p - n) * W) in *.
    assert (D1 : lt = true <-> 2 * xt < 2 * a + u) by (rewrite LT, Z.ltb_lt; exact C1).
    assert (D2 : gt = true <-> 2 * a + u < 2 * xt) by (rewrite GT, Z.ltb_lt; exact C2).
    clear LT GT C1 C2.
    destruct lt; [|destruct gt].
    + fold a. destruct Hc' as [->| ->]; [fold a; lia|]. rewrite HI. clearbody xt a u. lia.
    + rewrite HI. destruct Hc' as [->| ->]; [fold a|rewrite HI]; clearbody xt a u; lia.
    + assert (EQ : 2 * xt = 2 * a + u) by (clearbody xt a u; lia).
      destruct up; [rewrite HI|fold a]; destruct Hc' as [->| ->]; try rewrite HI; try fold a; clearbody xt a u; lia.
  - eapply Here; [exact H|]. eapply Alone; eauto.
  - eapply Here; [exact H|]. eapply Alone; eauto.
  - destruct (IH (n + 1) f ltac:(lia) H) as (j & c & L & NW & E & B). exists j, c. split; [lia|]. split; auto.
    intros i Hi. destruct (Z.eq_dec i n) as [->|]; [unfold works; split; congruence|apply NW; lia].
Qed.
Lemma search_finds up : forall k n j, n <= j < n + Z.of_nat k -> works j (lo j) \/ works j (lo j + 1) ->
  exists f, search up m e k n = Some f.
Proof.
  induction k as [|k IH]; intros n j L Wj; [lia|]. cbn [search]. fold (lo n).
  destruct (reads_back m e (lo n) (n - p)) eqn:R1, (reads_back m e (lo n + 1) (n - p)) eqn:R2; eauto.
  apply (IH (n + 1) j); auto. destruct (Z.eq_dec j n) as [->|]; [|lia]. unfold works in Wj. destruct Wj; congruence.
Qed.

Theorem shortest_found up : shortest m e (shortest_digits up m e) /\ (slen (fst (shortest_digits up m e)) <= 17)%nat.
Proof.
  destruct (search_finds up 17 1 17 ltac:(lia) seventeen) as (f & E). unfold shortest_digits. rewrite E.
  destruct (search_spec up 17 1 f ltac:(lia) E) as (j & c & Lj & NW & -> & (Cc & Wc & Best)).
  set (K0 := Z.max 0 (j - p)).
  destruct (lo_spec j K0 ltac:(lia) ltac:(lia) ltac:(lia)) as ((B1 & B2) & _).
  pose proof (pow10_pos (j - 1) ltac:(lia)) as P1. assert (Pc : 0 < c) by lia.
  unfold digits_of. cbn [fst snd]. set (t := decimal (Z.to_N c)).
  assert (Sg : significant t) by (split; [apply decimal_digits|apply decimal_significant; lia]).
  assert (V : val t = c) by (unfold t; rewrite decimal_value, Z2N.id; lia).
  assert (St : forall K, 0 <= K -> j - p <= K -> stands (strip t) (len t - (j - p)) (Z.to_N (c * 10 ^ (K + p - j))) (Z.to_nat K)).
  { intros K PK LK. apply stands_strip. apply (stands_iff t _ _ _ 0 (K + p - j)); try lia.
  }
  assert (Len : (slen (strip t) <= Z.to_nat j)%nat).
  { destruct (Z.eq_dec c (10 ^ j)) as [Ec|Ec].
    - unfold t. rewrite Ec, strip_power by lia. lia.
    - pose proof (strip_length t). destruct (value_low t Sg) as [V1 V2]. rewrite V in V1.
      assert (len t - 1 < j); [|lia]. apply (Z.pow_lt_mono_r_iff 10); lia. }
  split; [|lia]. split; [now apply strip_significant|]. split.
  - exists (Z.to_N (c * 10 ^ (K0 + p - j))), (Z.to_nat K0). split; [apply St; lia|].
    unfold works in Wc. apply (reads_back_iff c (j - p) K0) in Wc; try lia.
    replace (K0 - (j - p)) with (K0 + p - j) in Wc by lia. exact Wc.
  - intros d' p' Sd Rd. destruct (value_low d' Sd) as [_ Pn'].
    assert (Works : works (len d') (lo (len d')) \/ works (len d') (lo (len d') + 1)).
    { set (K := Z.max 0 (Z.max (len d' - p) (len d' - p'))).
      destruct (candidates d' p' Sd Rd K ltac:(lia) ltac:(lia) ltac:(lia)) as [C1 C2].
      destruct (Z_le_gt_dec (val d' * 10 ^ (K + p' - len d') * W) (X * 10 ^ K)) as [C|C]; [left; now apply C1|right; apply C2; lia]. }
    assert (Lj' : j <= len d').
    { destruct (Z_le_gt_dec j (len d')) as [C|C]; auto. exfalso. destruct (NW (len d') ltac:(lia)). tauto. }
    cbn [fst snd]. split; [lia|]. intros EL. assert (Ej : len d' = j) by lia.
    intros n k n' k' S1 S2. set (K := Z.max 0 (Z.max (j - p) (j - p'))).
    pose proof (pow10_pos (K + p' - j) ltac:(lia)) as PU'. pose proof (pow10_pos (K + p - j) ltac:(lia)) as PU.
    assert (Pv : 0 < val d') by (destruct (value_low d' Sd) as [VL _]; pose proof (pow10_pos (len d' - 1) ltac:(lia)); lia).
    set (M' := val d' * 10 ^ (K + p' - j)).
    assert (PM' : 0 < M') by (apply Z.mul_pos_pos; assumption).
    assert (St' : stands d' p' (Z.to_N M') (Z.to_nat K)).
    { apply (stands_iff d' p' _ _ 0 (K + p' - j)); try lia. }
    assert (PM : 0 < c * 10 ^ (K + p - j)) by nia.
    pose proof (gap_ratio _ _ _ _ (Zpos m) e (stands_ratio _ _ _ _ _ _ S1 (St K ltac:(lia) ltac:(lia)))) as G1.
    pose proof (gap_ratio _ _ _ _ (Zpos m) e (stands_ratio _ _ _ _ _ _ S2 St')) as G2.
    rewrite Z2Nat.id in G1, G2 by lia. rewrite gap_at in G1, G2 by lia. fold X in G1, G2.
    assert (GG : Z.abs (X * 10 ^ K - c * 10 ^ (K + p - j) * W) <= Z.abs (X * 10 ^ K - M' * W)).
    { destruct (candidates d' p' Sd Rd K ltac:(lia) ltac:(lia) ltac:(lia)) as [C1 C2].
      rewrite Ej in C1, C2. fold M' in C1, C2.
      destruct (lo_spec j K ltac:(lia) ltac:(lia) ltac:(lia)) as (_ & F1 & F2).
      assert (PW : 0 < W) by (apply pow2_pos; lia).
      destruct (Z_le_gt_dec (M' * W) (X * 10 ^ K)) as [C|C].
      - destruct (C1 C) as [LE Wl].
        eapply Z.le_trans; [apply (Best K (lo j)); auto; lia|].
        assert (M' * W <= lo j * 10 ^ (K + p - j) * W) by (apply Z.mul_le_mono_nonneg_r; lia). lia.
      - destruct (C2 ltac:(lia)) as [LE Wl].
        eapply Z.le_trans; [apply (Best K (lo j + 1)); auto; lia|].
        assert ((lo j + 1) * 10 ^ (K + p - j) * W <= M' * W) by (apply Z.mul_le_mono_nonneg_r; lia). lia. }
    pose proof (pow10_pos K ltac:(lia)) as PT. pose proof (pow10_pos (Z.of_nat k) ltac:(lia)) as Pk.
    pose proof (pow10_pos (Z.of_nat k') ltac:(lia)) as Pk'.
    set (T := 10 ^ K) in *. set (a := gap n k (Zpos m) e) in *. set (b := gap n' k' (Zpos m) e) in *.
    set (g := Z.abs (X * T - c * 10 ^ (K + p - j) * W)) in *. set (g' := Z.abs (X * T - M' * W)) in *.
    set (h := 10 ^ Z.of_nat k) in *. set (h' := 10 ^ Z.of_nat k') in *. clearbody T a b g g' h h'.
    apply (Z.mul_le_mono_pos_r _ _ T PT).
    replace (a * h' * T) with (a * T * h') by ring. replace (b * h * T) with (b * T * h) by ring. rewrite G1, G2.
    replace (g * h * h') with (g * (h * h')) by ring. replace (g' * h' * h) with (g' * (h * h')) by ring.
    apply Z.mul_le_mono_nonneg_r; [nia|exact GG].
Qed.
End Number.

Lemma literal_canonical m e : literal (S754_finite false m e) ->
  binary64 (Zpos m) e /\ (2 ^ 52 <= Zpos m \/ e = -1074).
Proof.
  intros (s & E). unfold parse_f64 in E. destruct (read_decimal s false 0 0 0) as [[[n k] []]|]; try discriminate E.
  injection E as E. pose proof (round_decimal_correct n k) as R0. rewrite E in R0. destruct R0 as (A & B & _). auto.
Qed.
Theorem shortest_literal up m e : literal (S754_finite false m e) ->
  shortest m e (shortest_digits up m e) /\ (slen (fst (shortest_digits up m e)) <= 17)%nat.
Proof. intros L. destruct (literal_canonical m e L). now apply shortest_found. Qed.
Theorem shortest_finds digs : (forall m e, literal (S754_finite false m e) -> shortest m e (digs m e)) -> finds digs.
Proof. intros H m e L. destruct (H m e L) as (A & B & _). auto. Qed.
