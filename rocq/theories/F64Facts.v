(** [round_decimal] rounds correctly. *)
From Coq Require Import ZArith Lia.
From Coq Require Import Floats.SpecFloat.
From Verif Require Import Base F64 SpecNumber.
Local Open Scope Z_scope.

(** Where [N / D] lies with respect to [m] and [m + 1]. *)
Definition inb (N D m : Z) (l : location) : Prop :=
  match l with
  | loc_Exact => N = m * D
  | loc_Inexact c =>
    m * D < N < m * D + D /\ (2 * N ?= 2 * (m * D) + D) = c
  end.

Lemma compare_elim a b c : (a ?= b) = c ->
  match c with Lt => a < b | Eq => a = b | Gt => b < a end.
Proof. intros <-. destruct (Z.compare_spec a b); assumption. Qed.

Lemma compare_intro a b c :
  match c with Lt => a < b | Eq => a = b | Gt => b < a end -> (a ?= b) = c.
Proof. destruct c; intros E; destruct (Z.compare_spec a b); lia || reflexivity. Qed.

Lemma inb_scale N D m l z : 0 < z -> inb N D m l -> inb (N * z) (D * z) m l.
Proof.
  intros Z. destruct l as [|c]; cbn [inb].
  - intros ->. ring.
  - intros [[A B] C]. split.
    + replace (m * (D * z)) with (m * D * z) by ring. nia.
    + rewrite <- C, (Zmult_compare_compat_r (2 * N) _ z) by lia. f_equal; ring.
Qed.

Lemma inb_div N D : 0 < D -> let '(q, r) := Z.div_eucl N D in
  q = N / D /\ inb N D q (new_location D r).
Proof.
  intros P. pose proof (Z_div_mod N D ltac:(lia)) as H.
  unfold Z.div. destruct (Z.div_eucl N D) as [q r]. split; [reflexivity|].
  destruct H as [-> R]. unfold new_location, new_location_even, new_location_odd.
  destruct (Z.even D) eqn:E.
  - destruct (Zeq_bool r 0) eqn:Z.
    + apply Zeq_bool_eq in Z. cbn. lia.
    + apply Zeq_bool_neq in Z. cbn [inb]. split; [nia|].
      destruct (Z.compare_spec (2 * r) D) as [C|C|C]; apply compare_intro; lia.
  - assert (O : Z.odd D = true) by (rewrite <- Z.negb_even, E; reflexivity).
    apply Z.odd_spec in O. destruct O as [d O].
    destruct (Zeq_bool r 0) eqn:Z.
    + apply Zeq_bool_eq in Z. cbn. lia.
    + apply Zeq_bool_neq in Z. cbn [inb]. split; [nia|].
      destruct (Z.compare_spec (2 * r + 1) D) as [C|C|C]; apply compare_intro; lia.
Qed.

Lemma shr_1_m r : 0 <= shr_m r -> shr_m (shr_1 r) = shr_m r / 2.
Proof.
  destruct r as [m r s]. cbn [shr_m]. intros P. rewrite <- Z.div2_div.
  destruct m as [|[p|p|]|]; try reflexivity. lia.
Qed.

Lemma shr_1_inb N D r : 0 < D -> 0 <= shr_m r ->
  inb N D (shr_m r) (loc_of_shr_record r) ->
  inb N (D * 2) (shr_m (shr_1 r)) (loc_of_shr_record (shr_1 r)).
Proof.
  intros PD. destruct r as [m r s]. cbn [shr_m]. intros P H.
  assert (A : exists a b, m = 2 * a + Z.b2z b /\ 0 <= a /\
            shr_1 (Build_shr_record m r s) = Build_shr_record a b (r || s)).
  { destruct m as [|[p|p|]|p]; try lia; cbn [shr_1].
    - exists 0, false. split; [reflexivity|]. split; [lia|reflexivity].
    - exists (Zpos p), true. split; [cbn; lia|]. split; [lia|reflexivity].
    - exists (Zpos p), false. split; [cbn; lia|]. split; [lia|reflexivity].
    - exists 0, true. split; [reflexivity|]. split; [lia|reflexivity]. }
  destruct A as (a & b & -> & PA & ->). cbn [shr_m].
  assert (EA : (2 * a + Z.b2z b) * D = 2 * (a * D) + Z.b2z b * D) by ring.
  assert (EB : a * (D * 2) = 2 * (a * D)) by ring.
  destruct b, r, s; cbn [inb loc_of_shr_record orb Z.b2z] in H, EA |- *;
    repeat match goal with
    | H : _ /\ _ |- _ => destruct H
    | H : (_ ?= _) = _ |- _ => apply compare_elim in H; cbv beta iota in H
    | |- _ /\ _ => split
    | |- (_ ?= _) = _ => apply compare_intro; cbv beta iota
    end; lia.
Qed.

Lemma iter_pos_spec A (f : A -> A) n : forall x, SpecFloat.iter_pos f n x = Pos.iter f x n.
Proof.
  induction n as [n IH|n IH|]; intros x; cbn [SpecFloat.iter_pos Pos.iter].
  - rewrite !IH. rewrite <- !Pos.iter_swap. reflexivity.
  - rewrite !IH. reflexivity.
  - reflexivity.
Qed.

Lemma shr_pos N D r n : 0 < D -> 0 <= shr_m r ->
  inb N D (shr_m r) (loc_of_shr_record r) ->
  let r' := SpecFloat.iter_pos shr_1 n r in
  shr_m r' = shr_m r / 2 ^ Zpos n /\
  inb N (D * 2 ^ Zpos n) (shr_m r') (loc_of_shr_record r').
Proof.
  intros PD P H. cbv zeta. rewrite iter_pos_spec.
  induction n as [|n IH] using Pos.peano_ind.
  - cbn [Pos.iter]. change (2 ^ 1) with 2. split; [apply shr_1_m, P|].
    apply shr_1_inb; assumption.
  - destruct IH as [IM II]. rewrite Pos.iter_succ.
    set (r' := Pos.iter shr_1 r n) in *.
    assert (PW : 0 < 2 ^ Zpos n) by (apply Z.pow_pos_nonneg; lia).
    assert (P' : 0 <= shr_m r') by (rewrite IM; apply Z.div_pos; lia).
    rewrite Pos2Z.inj_succ, Z.pow_succ_r by lia. split.
    + rewrite shr_1_m, IM by exact P'. rewrite Z.div_div by lia. f_equal. ring.
    + replace (D * (2 * 2 ^ Zpos n)) with (D * 2 ^ Zpos n * 2) by ring.
      apply shr_1_inb; [nia|exact P'|exact II].
Qed.

Lemma loc_record m l : loc_of_shr_record (shr_record_of_loc m l) = l.
Proof. destruct l as [|[]]; reflexivity. Qed.

Lemma record_m m l : shr_m (shr_record_of_loc m l) = m.
Proof. destruct l as [|[]]; reflexivity. Qed.

Lemma shr_spec N D m l e n : 0 < D -> 0 <= m -> 0 <= n -> inb N D m l ->
  exists r, shr (shr_record_of_loc m l) e n = (r, e + n) /\
    shr_m r = m / 2 ^ n /\ inb N (D * 2 ^ n) (shr_m r) (loc_of_shr_record r).
Proof.
  intros PD P PN H. destruct n as [|n|n]; [| |lia].
  - exists (shr_record_of_loc m l). cbn [shr]. split; [f_equal; lia|].
    rewrite record_m, loc_record. change (2 ^ 0) with 1.
    rewrite Z.div_1_r, Z.mul_1_r. split; [reflexivity|exact H].
  - exists (SpecFloat.iter_pos shr_1 n (shr_record_of_loc m l)). split; [reflexivity|].
    destruct (shr_pos N D (shr_record_of_loc m l) n PD) as [A B].
    + rewrite record_m. exact P.
    + rewrite record_m, loc_record. exact H.
    + rewrite record_m in A. split; assumption.
Qed.

Lemma digits2_spec p :
  2 ^ (Zpos (digits2_pos p) - 1) <= Zpos p < 2 ^ Zpos (digits2_pos p).
Proof.
  assert (E : forall q, Zpos (Pos.succ q) = Zpos q + 1) by lia.
  induction p as [p IH|p IH|]; cbn [digits2_pos]; rewrite ?E.
  - replace (Zpos (digits2_pos p) + 1 - 1) with (Zpos (digits2_pos p) - 1 + 1) by lia.
    rewrite !Z.pow_add_r by lia. change (2 ^ 1) with 2. lia.
  - replace (Zpos (digits2_pos p) + 1 - 1) with (Zpos (digits2_pos p) - 1 + 1) by lia.
    rewrite !Z.pow_add_r by lia. change (2 ^ 1) with 2. lia.
  - cbn. lia.
Qed.

Lemma Zdigits2_pos m : 0 < m ->
  0 < Zdigits2 m /\ 2 ^ (Zdigits2 m - 1) <= m < 2 ^ Zdigits2 m.
Proof.
  destruct m as [|p|p]; try lia. intros _. cbn [Zdigits2].
  split; [lia|apply digits2_spec].
Qed.

Lemma Zdigits2_lt m k : 0 <= m -> 0 <= k -> m < 2 ^ k -> Zdigits2 m <= k.
Proof.
  intros P K L. destruct (Z.eq_dec m 0) as [->|NZ]; [exact K|].
  destruct (Zdigits2_pos m ltac:(lia)) as [Q [A B]].
  destruct (Z_le_gt_dec (Zdigits2 m) k) as [|G]; [assumption|].
  pose proof (Z.pow_le_mono_r 2 k (Zdigits2 m - 1) ltac:(lia) ltac:(lia)). lia.
Qed.

Lemma Zdigits2_ge m k : 0 <= k -> 2 ^ k <= m -> k + 1 <= Zdigits2 m.
Proof.
  intros K L. assert (0 < 2 ^ k) by (apply Z.pow_pos_nonneg; lia).
  destruct (Zdigits2_pos m ltac:(lia)) as [Q [A B]].
  destruct (Z_le_gt_dec (k + 1) (Zdigits2 m)) as [|G]; [assumption|].
  pose proof (Z.pow_le_mono_r 2 (Zdigits2 m) k ltac:(lia) ltac:(lia)). lia.
Qed.

(** The division: [x] is [q] plus a fraction, in units of [2^e]. *)
Lemma div_spec m D : 0 < m -> 0 < D ->
  exists q e l, SFdiv_core_binary 53 1024 m 0 D 0 = (q, e, l) /\
    0 <= q /\ -1074 <= e <= 0 /\ (2 ^ 52 <= q \/ e = -1074) /\
    inb (m * 2 ^ (- e)) D q l.
Proof.
  intros PM PD. unfold SFdiv_core_binary.
  set (e := Z.min (fexp 53 1024 (Zdigits2 m + 0 - (Zdigits2 D + 0))) (0 - 0)).
  destruct (Zdigits2_pos m PM) as [M0 [M1 M2]].
  destruct (Zdigits2_pos D PD) as [D0 [D1 D2]].
  assert (E : -1074 <= e <= 0 /\ (e = -1074 \/ e <= Zdigits2 m - Zdigits2 D - 53)).
  { unfold e, fexp, emin. lia. }
  destruct E as [E E'].
  assert (S : match 0 - 0 - e with
              | Z0 => m | Zpos _ => Z.shiftl m (0 - 0 - e) | Zneg _ => 0
              end = m * 2 ^ (- e)).
  { replace (0 - 0 - e) with (- e) by lia.
    destruct (- e) as [|s|s] eqn:Q; [|apply Z.shiftl_mul_pow2; lia|lia].
    change (2 ^ 0) with 1. lia. }
  rewrite S. clear S. pose proof (inb_div (m * 2 ^ (- e)) D PD) as H.
  destruct (Z.div_eucl (m * 2 ^ (- e)) D) as [q r]. destruct H as [Q H].
  exists q, e, (new_location D r). split; [reflexivity|].
  assert (P2 : 0 < 2 ^ (- e)) by (apply Z.pow_pos_nonneg; lia).
  assert (PQ : 0 <= q) by (rewrite Q; apply Z.div_pos; nia).
  split; [exact PQ|]. split; [exact E|]. split; [|exact H].
  destruct E' as [E'|E']; [right; exact E'|left].
  rewrite Q. apply Z.div_le_lower_bound; [exact PD|].
  apply Z.le_trans with (2 ^ (Zdigits2 m - 1) * 2 ^ (- e)); [|nia].
  rewrite <- Z.pow_add_r by lia.
  apply Z.le_trans with (2 ^ Zdigits2 D * 2 ^ 52); [nia|].
  rewrite <- Z.pow_add_r by lia. apply Z.pow_le_mono_r; lia.
Qed.

(** The first shift brings the quotient to 53 bits. *)
Lemma shift_spec N D q e l : 0 < D -> 0 <= q -> -1074 <= e ->
  (2 ^ 52 <= q \/ e = -1074) -> inb N D q l ->
  exists r n, 0 <= n /\ shr_fexp 53 1024 q e l = (r, e + n) /\
    inb N (D * 2 ^ n) (shr_m r) (loc_of_shr_record r) /\
    0 <= shr_m r < 2 ^ 53 /\ (2 ^ 52 <= shr_m r \/ e + n = -1074).
Proof.
  intros PD PQ PE H I. unfold shr_fexp.
  set (n := fexp 53 1024 (Zdigits2 q + e) - e).
  assert (QD : 2 ^ 52 <= q -> 53 <= Zdigits2 q)
    by (intros G; apply (Zdigits2_ge q 52); [lia|exact G]).
  assert (NN : 0 <= n) by (unfold n, fexp, emin; lia).
  destruct (shr_spec N D q l e n PD PQ NN I) as (r & E & M & J).
  exists r, n. split; [exact NN|]. split; [exact E|]. split; [exact J|].
  rewrite M.
  assert (P2 : 0 < 2 ^ n) by (apply Z.pow_pos_nonneg; lia).
  assert (LO : 0 <= q / 2 ^ n) by (apply Z.div_pos; lia).
  destruct (Z_le_gt_dec 53 (Zdigits2 q)) as [B|B].
  - assert (q <> 0) by (intros ->; cbn in B; lia).
    destruct (Zdigits2_pos q ltac:(lia)) as [Q0 [Q1 Q2]].
    destruct (Z.eq_dec n (Zdigits2 q - 53)) as [NE|NE].
    + split; [split; [exact LO|]|left].
      * apply Z.div_lt_upper_bound; [exact P2|]. rewrite NE, <- Z.pow_add_r by lia.
        replace (Zdigits2 q - 53 + 53) with (Zdigits2 q) by lia. exact Q2.
      * apply Z.div_le_lower_bound; [exact P2|]. rewrite NE, <- Z.pow_add_r by lia.
        replace (Zdigits2 q - 53 + 52) with (Zdigits2 q - 1) by lia. exact Q1.
    + unfold n, fexp, emin in NE. lia.
  - assert (e = -1074 /\ n = 0) as [-> ->].
    { assert (e = -1074) by (destruct H as [H|H]; [apply QD in H; lia|exact H]).
      split; [assumption|]. unfold n, fexp, emin. lia. }
    change (2 ^ 0) with 1. rewrite Z.div_1_r. split; [|right; reflexivity].
    split; [exact PQ|]. destruct (Z.eq_dec q 0) as [->|NZ]; [reflexivity|].
    destruct (Zdigits2_pos q ltac:(lia)) as [Q0 [Q1 Q2]].
    apply Z.lt_le_trans with (1 := Q2). apply Z.pow_le_mono_r; lia.
Qed.

Lemma even_succ_odd m : Z.even m = false -> Z.even (m + 1) = true.
Proof.
  intros E. rewrite Z.even_add, E. reflexivity.
Qed.

(** Rounding to the nearest integer. *)
Lemma rne_spec N D m l : 0 < D -> inb N D m l ->
  let R := round_nearest_even m l in
  (R = m \/ R = m + 1) /\ 2 * Z.abs (R * D - N) <= D /\
  (2 * Z.abs (R * D - N) = D -> Z.even R = true) /\ m * D <= N < m * D + D.
Proof.
  intros PD H. cbv zeta. destruct l as [|c]; cbn [inb round_nearest_even] in *.
  - subst N. replace (m * D - m * D) with 0 by ring. cbn. lia.
  - destruct H as [H C]. destruct c.
    + apply compare_elim in C; cbn -[Z.mul] in C. destruct (Z.even m) eqn:E.
      * split; [left; reflexivity|]. split; [lia|]. split; [intros _; exact E|lia].
      * split; [right; reflexivity|]. split; [lia|].
        split; [intros _; apply even_succ_odd, E|lia].
    + apply compare_elim in C; cbn -[Z.mul] in C. split; [left; reflexivity|]. split; [lia|].
      split; [intros; lia|lia].
    + apply compare_elim in C; cbn -[Z.mul] in C. split; [right; reflexivity|]. split; [lia|].
      split; [intros; lia|lia].
Qed.

(** The second shift: only when rounding carried to [2^53]. *)
Lemma carry_spec R e : 0 <= R <= 2 ^ 53 -> -1074 <= e ->
  (2 ^ 52 <= R \/ e = -1074) ->
  exists r e', shr_fexp 53 1024 R e loc_Exact = (r, e') /\ -1074 <= e' /\
    shr_m r * 2 ^ (e' + 1074) = R * 2 ^ (e + 1074) /\ 0 <= shr_m r < 2 ^ 53 /\
    (2 ^ 52 <= shr_m r \/ e' = -1074) /\
    ((R = shr_m r /\ e' = e) \/ R = 2 ^ 53 /\ shr_m r = 2 ^ 52 /\ e' = e + 1).
Proof.
  intros B PE H. destruct (Z.eq_dec R (2 ^ 53)) as [->|NE].
  - unfold shr_fexp. change (Zdigits2 (2 ^ 53)) with 54.
    replace (fexp 53 1024 (54 + e) - e) with 1 by (unfold fexp, emin; lia).
    exists (Build_shr_record (2 ^ 52) false false), (e + 1). split; [reflexivity|].
    split; [lia|]. cbn [shr_m]. split; [|split; [lia|split; [lia|right; lia]]].
    replace (e + 1 + 1074) with (1 + (e + 1074)) by lia.
    rewrite (Z.pow_add_r 2 1) by lia. change (2 ^ 53) with (2 ^ 52 * 2 ^ 1). ring.
  - assert (L : R < 2 ^ 53) by lia. unfold shr_fexp.
    assert (Z : fexp 53 1024 (Zdigits2 R + e) - e <= 0).
    { pose proof (Zdigits2_lt R 53 ltac:(lia) ltac:(lia) L).
      unfold fexp, emin. lia. }
    exists (Build_shr_record R false false), e. split.
    + cbn [shr_record_of_loc]. destruct (fexp 53 1024 (Zdigits2 R + e) - e); [reflexivity|lia|reflexivity].
    + cbn [shr_m]. split; [exact PE|]. split; [reflexivity|]. split; [lia|].
      split; [exact H|left; split; reflexivity].
Qed.

Lemma unit_apart Q R U : 0 < U -> Q <> R -> U <= Z.abs (Q * U - R * U).
Proof. intros PU N. rewrite <- Z.mul_sub_distr_r, Z.abs_mul. nia. Qed.

(** A number at distance at most half a unit is the nearest. *)
Lemma nearest_unit m k M R e :
  let U := 2 ^ (e + 1074) * 10 ^ Z.of_nat k in
  let X := Z.of_N m * 2 ^ 1074 in
  -1074 <= e -> (2 ^ 52 <= M \/ e = -1074) -> M * U <= X < M * U + U ->
  (R = M \/ R = M + 1) ->
  2 * Z.abs (R * U - X) <= U -> (2 * Z.abs (R * U - X) = U -> Z.even R = true) ->
  forall q g, binary64 q g ->
    gap m k R e <= gap m k q g /\
    (gap m k R e = gap m k q g ->
     q * 2 ^ (g + 1074) = R * 2 ^ (e + 1074) \/ Z.even R = true).
Proof.
  intros U X PE LOW BX RM HALF TIE q g [BQ BG]. unfold gap.
  set (T := 10 ^ Z.of_nat k) in *. fold X.
  assert (PT : 0 < T) by (apply Z.pow_pos_nonneg; lia).
  replace (R * 2 ^ (e + 1074) * T - X) with (R * U - X) by (unfold U; ring).
  destruct (Z_le_gt_dec e g) as [G|G].
  - (* a multiple of the unit *)
    assert (EQ : 2 ^ (g + 1074) = 2 ^ (g - e) * 2 ^ (e + 1074)).
    { rewrite <- Z.pow_add_r by lia. f_equal. lia. }
    set (Q := q * 2 ^ (g - e)).
    assert (EQ' : q * 2 ^ (g + 1074) = Q * 2 ^ (e + 1074)) by (unfold Q; rewrite EQ; ring).
    rewrite EQ'. replace (Q * 2 ^ (e + 1074) * T) with (Q * U) by (unfold U; ring).
    assert (PU : 0 < U) by (unfold U; pose proof (Z.pow_pos_nonneg 2 (e + 1074)); nia).
    destruct (Z.eq_dec Q R) as [->|NE].
    + split; [lia|]. intros _. left. reflexivity.
    + pose proof (unit_apart Q R U PU NE) as D.
      split; [lia|]. intros EG. right. apply TIE. lia.
  - (* a finer number: below the binade *)
    assert (L : 2 ^ 52 <= M) by lia.
    assert (P : 0 < 2 ^ (g + 1074)) by (apply Z.pow_pos_nonneg; lia).
    assert (S : q * 2 ^ (g + 1074) < M * 2 ^ (e + 1074)).
    { apply Z.lt_le_trans with (2 ^ 53 * 2 ^ (g + 1074)); [nia|].
      apply Z.le_trans with (2 ^ 52 * 2 ^ (e + 1074)).
      - change (2 ^ 53) with (2 ^ 52 * 2 ^ 1). rewrite <- Z.mul_assoc, <- Z.pow_add_r by lia.
        apply Z.mul_le_mono_nonneg_l; [lia|]. apply Z.pow_le_mono_r; lia.
      - apply Z.mul_le_mono_nonneg_r; [|exact L]. apply Z.pow_nonneg. lia. }
    assert (S' : q * 2 ^ (g + 1074) * T < M * U) by (unfold U; nia).
    assert (N : Z.abs (R * U - X) <= X - M * U) by (destruct RM as [-> | ->]; lia).
    split; [lia|]. intros EG. lia.
Qed.

(** Arithmetic of the overflow limit. *)
Lemma limit_last R U W X : 0 < W -> U = 2 * W -> R < 2 ^ 53 ->
  2 * Z.abs (R * U - X) <= U -> (2 ^ 54 - 1) * W <= X ->
  R = 2 ^ 53 - 1 /\ 2 * Z.abs (R * U - X) = U.
Proof. intros PW -> L H B. assert (R = 2 ^ 53 - 1) by nia. subst R. lia. Qed.

Lemma limit_below R U W X : 0 < U -> U <= W -> R <= 2 ^ 53 ->
  2 * Z.abs (R * U - X) <= U -> X < (2 ^ 54 - 1) * W.
Proof. intros PU L LR H. nia. Qed.

Lemma round_decimal_correct m k : rounded m k (round_decimal m k).
Proof.
  destruct m as [|p]; cbn [round_decimal].
  { intros q g B. unfold gap. cbn [Z.of_N]. rewrite !Z.mul_0_l. split; [|intros; right; reflexivity].
    cbn. apply Z.abs_nonneg. }
  set (T := 10 ^ Z.of_nat k).
  assert (PT : 0 < T) by (apply Z.pow_pos_nonneg; lia).
  destruct (div_spec (Zpos p) T ltac:(lia) PT) as (q & e & l & -> & PQ & BE & LQ & I).
  destruct (shift_spec _ T q e l PT PQ ltac:(lia) LQ I) as (r & n & PN & ES & J & BM & LM).
  unfold binary_round_aux. rewrite ES.
  set (M := shr_m r) in *. set (l' := loc_of_shr_record r) in *.
  assert (SC : 0 < 2 ^ (1074 + e)) by (apply Z.pow_pos_nonneg; lia).
  assert (K : inb (Zpos p * 2 ^ 1074) (2 ^ (e + n + 1074) * T) M l').
  { apply (inb_scale _ _ _ _ _ SC) in J.
    rewrite <- Z.mul_assoc, <- Z.pow_add_r in J by lia.
    replace (- e + (1074 + e)) with 1074 in J by lia.
    replace (T * 2 ^ n * 2 ^ (1074 + e)) with (2 ^ (e + n + 1074) * T) in J; [exact J|].
    rewrite <- Z.mul_assoc, <- Z.pow_add_r by lia.
    replace (n + (1074 + e)) with (e + n + 1074) by lia. ring. }
  set (e1 := e + n) in *. set (U := 2 ^ (e1 + 1074) * T) in *.
  assert (PE1 : -1074 <= e1) by lia.
  assert (P2 : 0 < 2 ^ (e1 + 1074)) by (apply Z.pow_pos_nonneg; lia).
  assert (PU : 0 < U) by (unfold U; nia).
  destruct (rne_spec _ U M l' PU K) as (RM & HALF & TIE & BX).
  set (R := round_nearest_even M l') in *.
  destruct (carry_spec R e1 ltac:(lia) PE1 ltac:(lia))
    as (r2 & e2 & -> & PE2 & EV & B2 & L2 & CASES).
  pose proof (nearest_unit (Npos p) k M R e1 PE1 LM BX RM HALF TIE) as NEAR.
  set (X := Zpos p * 2 ^ 1074) in *.
  assert (W : exists W, W = 2 ^ 2044 * T) by (eexists; reflexivity).
  destruct W as [W EW].
  assert (PW : 0 < W) by (rewrite EW; apply Z.mul_pos_pos; [apply Z.pow_pos_nonneg; lia|exact PT]).
  assert (OV : overflows (Npos p) k <-> (2 ^ 54 - 1) * W <= X).
  { unfold overflows, X. fold T. rewrite EW. change (2 ^ 2044) with (2 ^ 970 * 2 ^ 1074).
    cbn [Z.of_N]. pose proof (Z.pow_pos_nonneg 2 1074 ltac:(lia) ltac:(lia)).
    replace ((2 ^ 54 - 1) * (2 ^ 970 * 2 ^ 1074 * T))
      with ((2 ^ 54 - 1) * 2 ^ 970 * T * 2 ^ 1074) by ring.
    apply Z.mul_le_mono_pos_r. assumption. }
  assert (UW : forall d, 0 <= d -> e1 + d <= 970 -> U * 2 ^ d <= W).
  { intros d PD L. rewrite EW. unfold U.
    replace (2 ^ (e1 + 1074) * T * 2 ^ d) with (2 ^ (e1 + 1074) * 2 ^ d * T) by ring.
    rewrite <- Z.pow_add_r by lia. apply Z.mul_le_mono_nonneg_r; [lia|].
    apply Z.pow_le_mono_r; lia. }
  assert (WU : forall d, 0 <= d -> 970 + d <= e1 -> W * 2 ^ d <= U).
  { intros d PD L. rewrite EW. unfold U.
    replace (2 ^ 2044 * T * 2 ^ d) with (2 ^ 2044 * 2 ^ d * T) by ring.
    rewrite <- Z.pow_add_r by lia. apply Z.mul_le_mono_nonneg_r; [lia|].
    apply Z.pow_le_mono_r; lia. }
  assert (UX : e1 = 971 -> U = 2 * W).
  { intros ->. rewrite EW. unfold U. change (971 + 1074) with (1 + 2044).
    rewrite Z.pow_add_r by lia. change (2 ^ 1) with 2. ring. }
  clearbody X U. clear EW.
  destruct (shr_m r2) as [|m2|m2] eqn:E2; [| |lia].
  - assert (R = 0 /\ e1 = -1074) as [R0 E1] by lia.
    cbn [rounded]. rewrite R0, E1 in NEAR. exact NEAR.
  - change (1024 - 53) with 971. destruct (Zle_bool e2 971) eqn:LE.
    + apply Zle_bool_imp_le in LE. cbn [rounded].
      split; [split; [lia|lia]|]. split; [exact L2|]. split.
      * rewrite OV. intros BIG. destruct CASES as [[ER EE]|[ER [_ EE]]].
        -- destruct (Z.eq_dec e1 971) as [E9|NE9].
           ++ pose proof (WU 1 ltac:(lia) ltac:(lia)) as W1.
              pose proof (UX E9) as EU.
              destruct (limit_last R U W X PW EU ltac:(lia) HALF BIG) as [H HT].
              apply TIE in HT. rewrite H in HT. discriminate HT.
           ++ pose proof (UW 0 ltac:(lia) ltac:(lia)) as W1. rewrite Z.mul_1_r in W1.
              pose proof (limit_below R U W X PU W1 ltac:(lia) HALF). lia.
        -- pose proof (UW 0 ltac:(lia) ltac:(lia)) as W1. rewrite Z.mul_1_r in W1.
           pose proof (limit_below R U W X PU W1 ltac:(lia) HALF). lia.
      * intros q' g B. destruct (NEAR q' g B) as [A1 A2].
        assert (G : gap (Npos p) k (Zpos m2) e2 = gap (Npos p) k R e1).
        { unfold gap. rewrite EV. reflexivity. }
        rewrite G. split; [exact A1|]. intros EG. rewrite EV.
        destruct (A2 EG) as [A3|A3]; [left; exact A3|right].
        destruct CASES as [[ER EE]|[ER [EM EE]]]; [rewrite <- ER; exact A3|].
        rewrite EM. reflexivity.
    + assert (971 < e2) by (apply Z.leb_gt; exact LE). cbn [rounded].
      rewrite OV. destruct CASES as [[ER EE]|[ER [_ EE]]].
      * pose proof (WU 2 ltac:(lia) ltac:(lia)) as W1. change (2 ^ 2) with 4 in W1.
        assert (2 ^ 52 * (W * 4) <= M * U) by (apply Z.mul_le_mono_nonneg; lia). lia.
      * pose proof (WU 1 ltac:(lia) ltac:(lia)) as W1. change (2 ^ 1) with 2 in W1.
        rewrite ER in HALF. lia.
Qed.

(** ** The rounding is unique *)

(** Two canonical nearest numbers are the same. *)
Lemma nearest_le m k p e p' e' :
  0 <= p -> 0 <= p' -> binary64 p e -> binary64 p' e' ->
  (2 ^ 52 <= p \/ e = -1074) -> (2 ^ 52 <= p' \/ e' = -1074) ->
  nearest m k p e -> nearest m k p' e' ->
  p' * 2 ^ (e' + 1074) <= p * 2 ^ (e + 1074).
Proof.
  intros P P' B B' L L' N N'.
  destruct (Z_le_gt_dec (p' * 2 ^ (e' + 1074)) (p * 2 ^ (e + 1074))) as [|LT]; [assumption|exfalso].
  destruct (N _ _ B') as [G1 T1]. destruct (N' _ _ B) as [G2 T2].
  assert (G : gap m k p e = gap m k p' e') by lia.
  destruct (T1 G) as [T|T]; [lia|]. destruct (T2 (eq_sym G)) as [T'|T']; [lia|].
  destruct B as [BP BE], B' as [BP' BE'].
  assert (A2 : 0 < 2 ^ (e + 1074)) by (apply Z.pow_pos_nonneg; lia).
  assert (A2' : 0 < 2 ^ (e' + 1074)) by (apply Z.pow_pos_nonneg; lia).
  assert (LE : e <= e').
  { destruct (Z_le_gt_dec e e') as [|GT]; [assumption|exfalso].
    assert (2 ^ (e' + 1074) * 2 <= 2 ^ (e + 1074)).
    { replace (2 ^ (e' + 1074) * 2) with (2 ^ (e' + 1074 + 1)) by (rewrite Z.pow_add_r by lia; reflexivity).
      apply Z.pow_le_mono_r; lia. }
    assert (2 ^ 52 * (2 ^ (e' + 1074) * 2) <= p * 2 ^ (e + 1074)) by (apply Z.mul_le_mono_nonneg; lia).
    assert (p' * 2 ^ (e' + 1074) <= 2 ^ 53 * 2 ^ (e' + 1074)) by (apply Z.mul_le_mono_nonneg_r; lia).
    lia. }
  assert (EP : p' * 2 ^ (e' + 1074) = p' * 2 ^ (e' - e) * 2 ^ (e + 1074)).
  { rewrite <- Z.mul_assoc, <- Z.pow_add_r by lia. do 2 f_equal. lia. }
  set (Q := p' * 2 ^ (e' - e)) in *.
  assert (EQ : Z.even Q = true) by (unfold Q; rewrite Z.even_mul, T'; reflexivity).
  assert (LQ : p < Q) by nia.
  assert (NQ : Q <> p + 1).
  { intros E. rewrite E, Z.even_add, T in EQ. discriminate EQ. }
  assert (NP : p + 1 <> 2 ^ 53).
  { intros E. assert (E' : p = 2 ^ 53 - 1) by lia. rewrite E' in T. discriminate T. }
  assert (B1 : binary64 (p + 1) e) by (split; lia).
  destruct (N _ _ B1) as [G3 _]. unfold gap in G, G3. rewrite EP in G.
  set (D := 10 ^ Z.of_nat k) in *. set (X := Z.of_N m * 2 ^ 1074) in *.
  assert (PD : 0 < D) by (apply Z.pow_pos_nonneg; lia).
  set (u := 2 ^ (e + 1074)) in *.
  replace (p * u * D) with (p * (u * D)) in * by ring.
  replace (Q * u * D) with (Q * (u * D)) in G by ring.
  replace ((p + 1) * u * D) with (p * (u * D) + u * D) in G3 by ring.
  assert (PU : 0 < u * D) by nia.
  assert (Q * (u * D) >= p * (u * D) + 2 * (u * D)) by nia.
  lia.
Qed.

Lemma nearest_unique m k p e p' e' :
  0 <= p -> 0 <= p' -> binary64 p e -> binary64 p' e' ->
  (2 ^ 52 <= p \/ e = -1074) -> (2 ^ 52 <= p' \/ e' = -1074) ->
  nearest m k p e -> nearest m k p' e' -> p = p' /\ e = e'.
Proof.
  intros P P' B B' L L' N N'.
  pose proof (nearest_le m k p e p' e' P P' B B' L L' N N') as A.
  pose proof (nearest_le m k p' e' p e P' P B' B L' L N' N) as A'.
  destruct B as [BP BE], B' as [BP' BE']. clear N N'.
  assert (W : forall p e p' e', 0 <= p -> Z.abs p < 2 ^ 53 -> -1074 <= e ->
            -1074 <= e' -> (2 ^ 52 <= p' \/ e' = -1074) ->
            p * 2 ^ (e + 1074) = p' * 2 ^ (e' + 1074) -> ~ e < e').
  { clear. intros p e p' e' P B E E' L V LT.
    assert (X : p = p' * 2 ^ (e' - e)).
    { assert (A2 : 0 < 2 ^ (e + 1074)) by (apply Z.pow_pos_nonneg; lia).
      apply (Z.mul_reg_r _ _ (2 ^ (e + 1074))); [lia|]. rewrite V.
      rewrite <- Z.mul_assoc, <- Z.pow_add_r by lia. do 2 f_equal. lia. }
    assert (2 ^ 1 <= 2 ^ (e' - e)) by (apply Z.pow_le_mono_r; lia).
    change (2 ^ 1) with 2 in *.
    assert (2 ^ 52 * 2 <= p' * 2 ^ (e' - e)) by (apply Z.mul_le_mono_nonneg; lia).
    lia. }
  assert (EE : e = e').
  { pose proof (W p e p' e' P BP ltac:(lia) ltac:(lia) L' ltac:(lia)).
    pose proof (W p' e' p e P' BP' ltac:(lia) ltac:(lia) L ltac:(lia)). lia. }
  subst e'. split; [|reflexivity].
  assert (A2 : 0 < 2 ^ (e + 1074)) by (apply Z.pow_pos_nonneg; lia).
  apply (Z.mul_reg_r _ _ (2 ^ (e + 1074))); lia.
Qed.

Lemma zero_small m k : nearest m k 0 (-1074) -> ~ overflows m k.
Proof.
  intros N O. assert (B : binary64 (2 ^ 53 - 1) 971) by (split; lia).
  destruct (N _ _ B) as [G _]. unfold gap, overflows in *.
  rewrite !Z.mul_0_l in G.
  set (D := 10 ^ Z.of_nat k) in *.
  assert (PD : 0 < D) by (apply Z.pow_pos_nonneg; lia).
  assert (P : 0 < 2 ^ 1074) by (apply Z.pow_pos_nonneg; lia).
  assert (O' : (2 ^ 54 - 1) * 2 ^ 970 * D * 2 ^ 1074 <= Z.of_N m * 2 ^ 1074)
    by (apply Z.mul_le_mono_nonneg_r; lia).
  replace ((2 ^ 54 - 1) * 2 ^ 970 * D * 2 ^ 1074)
    with ((2 ^ 54 - 1) * (2 ^ 970 * 2 ^ 1074 * D)) in O' by ring.
  replace ((2 ^ 53 - 1) * 2 ^ (971 + 1074) * D)
    with ((2 ^ 54 - 2) * (2 ^ 970 * 2 ^ 1074 * D)) in G.
  - assert (0 < 2 ^ 970 * 2 ^ 1074 * D).
    { apply Z.mul_pos_pos; [|exact PD]. apply Z.mul_pos_pos; [|exact P].
      apply Z.pow_pos_nonneg; lia. }
    set (w := 2 ^ 970 * 2 ^ 1074 * D) in *. set (X := Z.of_N m * 2 ^ 1074) in *.
    clearbody w X. lia.
  - change (971 + 1074) with (1 + (970 + 1074)). rewrite !(Z.pow_add_r 2) by lia.
    change (2 ^ 54 - 2) with ((2 ^ 53 - 1) * 2 ^ 1). ring.
Qed.

Lemma rounded_unique m k f f' : rounded m k f -> rounded m k f' -> f = f'.
Proof.
  assert (B0 : binary64 0 (-1074)) by (split; lia).
  destruct f as [[]|[]| |[] p e]; cbn [rounded]; try tauto;
  destruct f' as [[]|[]| |[] p' e']; cbn [rounded]; try tauto; intros A A'.
  - exfalso. exact (zero_small _ _ A A').
  - destruct A' as (B & L & _ & N).
    destruct (nearest_unique m k 0 (-1074) (Zpos p') e' ltac:(lia) ltac:(lia) B0 B
                (or_intror eq_refl) L A N) as [E _]. discriminate E.
  - exfalso. exact (zero_small _ _ A' A).
  - destruct A as (B & L & _ & N).
    destruct (nearest_unique m k 0 (-1074) (Zpos p) e ltac:(lia) ltac:(lia) B0 B
                (or_intror eq_refl) L A' N) as [E _]. discriminate E.
  - destruct A as (B & L & _ & N). destruct A' as (B' & L' & _ & N').
    destruct (nearest_unique m k (Zpos p) e (Zpos p') e' ltac:(lia) ltac:(lia) B B' L L' N N')
      as [E ->]. injection E as ->. reflexivity.
Qed.
