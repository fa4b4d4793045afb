(** The layout of printed numbers. *)
From Coq Require Import ZArith Floats.SpecFloat.
From Verif Require Import Base F64 Token Ast Show SpecNumber SpecShow SpecDriver SpecText RustText RustDigits
  StrFacts DriverFacts NumberFacts F64Facts TextNumber DigitFacts.
Import SpecNumber.
Local Open Scope string_scope.
Local Open Scope Z_scope.

Lemma trimmed_app a b : b <> "" -> trimmed b -> trimmed (a ++ b).
Proof.
  intros NE T c E. revert c E. induction a as [|x a IH]; intros c E; [exact (T c E)|].
  destruct c as [|y c]; cbn in E; [injection E as _ E; destruct a; [cbn in E; now destruct NE|discriminate E]|].
  injection E as _ E. exact (IH c E).
Qed.
Lemma trimmed_part a b : trimmed (a ++ b) -> trimmed b.
Proof. intros T c ->. apply (T (a ++ c)). apply append_assoc_s. Qed.
Lemma trimmed_zero d : d <> "" -> digits d -> trimmed d -> val d mod 10 <> 0.
Proof.
  intros NE D T. destruct (strip_zeros d) as (j & E). destruct j as [|j].
  - cbn [zeros] in E. rewrite append_nil_r in E. destruct (strip_last d) as [H|[H|H]].
    + rewrite H in E. contradiction.
    + rewrite <- E in H. exact H.
    + contradiction.
  - exfalso. apply (T (strip d ++ zeros j)). rewrite E at 1. rewrite <- append_assoc_s. f_equal.
    clear. induction j as [|j IH]; auto. cbn [zeros append] in *. now rewrite <- IH.
Qed.

Lemma shortest_trimmed m e x : shortest m e x -> trimmed (fst x).
Proof.
  intros (Sg & Rd & Sh) a E. assert (Sa : significant a).
  { rewrite E in Sg. destruct Sg as [D N]. split; [now apply digits_inv in D|].
    destruct a as [|c a]; [cbn in N; now apply N|exact N]. }
  destruct (Sh a (snd x) Sa) as [L _].
  - destruct Rd as (n & k & St & Ro). exists n, k. split; auto. rewrite E in St. now apply (stands_zeros a 1).
  - rewrite E, slen_append in L. cbn in L. lia.
Qed.

Lemma dec_text d p point : significant d -> trimmed d -> plain_text d p point (dec_str (d, p) (if point then 1 else 0)%nat).
Proof.
  intros Sg T. destruct (value_low d Sg) as [V1 V2]. unfold dec_str.
  destruct (Z.leb_spec p 0) as [L|L].
  - set (z := Z.to_nat (- p)).
    replace ((if point then 1 else 0) - (slen d + z))%nat with 0%nat by (destruct point; lia).
    cbn [zeros]. rewrite append_nil_r. apply (PFraction d p point "0" (zeros z ++ d)).
    + now left.
    + apply digits_app; [apply zeros_digits|apply Sg].
    + intros E. assert (X := f_equal slen E). rewrite slen_append in X. cbn in X. lia.
    + apply trimmed_app; auto. intros ->. cbn in V2. lia.
    + apply (stands_iff d p _ _ 0 0); try lia; [rewrite slen_append, zeros_length; lia|].
      rewrite !value_app, zeros_value. change (digits_value "0") with 0%N.
      rewrite N.mul_0_l, !N.add_0_l. lia.
  - set (q := Z.to_nat p). destruct (Nat.ltb_spec q (slen d)) as [Q|Q].
    + assert (SP := substring_split d q ltac:(lia)). assert (SL := substring_length q d ltac:(lia)).
      set (a := String.substring 0 q d) in *. set (b := String.substring q (slen d - q) d) in *.
      assert (AB : digits a /\ digits b) by (apply digits_inv; rewrite SP; apply Sg). destruct AB as [Da Db].
      assert (BL : slen b = (slen d - q)%nat).
      { assert (X : slen d = (slen a + slen b)%nat) by (rewrite <- SP at 1; apply slen_append). lia. }
      replace ((if point then 1 else 0) - (slen d - q))%nat with 0%nat by (destruct point; lia).
      cbn [zeros]. rewrite append_nil_r. apply (PFraction d p point a b).
      * right. split; auto. destruct Sg as [_ N]. destruct a as [|c a']; [cbn in SL; lia|]. rewrite <- SP in N. exact N.
      * exact Db.
      * intros ->. cbn in BL. lia.
      * apply (trimmed_part a). now rewrite SP.
      * rewrite SP. apply (stands_iff d p _ _ 0 0); lia.
    + replace (d ++ zeros (q - slen d) ++ match (if point then 1 else 0)%nat with 0%nat => "" | S _ => "." ++ zeros (if point then 1 else 0) end)
        with ((d ++ zeros (q - slen d)) ++ (if point then ".0" else "")) by (rewrite <- append_assoc_s; now destruct point).
      apply PWhole.
      * split; [apply digits_app; [apply Sg|apply zeros_digits]|]. destruct Sg as [_ N]. destruct d; [contradiction|exact N].
      * apply (stands_iff d p _ _ 0 (Z.of_nat (q - slen d))); try lia.
        rewrite value_app, zeros_value, zeros_length, N.add_0_r, N2Z.inj_mul, N2Z.inj_pow, nat_N_Z. change (Z.of_N 10) with 10. lia.
Qed.
Lemma exp_text d p plus : significant d -> exponent_text d p plus (exp_str (d, p) plus).
Proof.
  intros [_ N]. destruct d as [|c f]; [contradiction|]. unfold exp_str.
  replace (String.substring 0 1 (String c f)) with (String c "") by (now destruct f).
  replace (String.substring 1 (slen (String c f) - 1) (String c f)) with f.
  2: { cbn. rewrite Nat.sub_0_r. clear. induction f as [|x f IH]; auto. cbn. now rewrite <- IH. }
  assert (Z : (0 <= p - 1 /\ (if p - 1 <? 0 then "-" else plus) = plus \/ p - 1 < 0 /\ (if p - 1 <? 0 then "-" else plus) = "-")).
  { destruct (Z.ltb_spec (p - 1) 0); [now right|now left]. }
  replace (Z.abs_N (p - 1)) with (Z.to_N (Z.abs (p - 1))) by lia.
  destruct f as [|x f].
  - cbn [slen String.length Nat.ltb Nat.leb]. change (("" ++ "e" ++ ?u)) with ("e" ++ u). now apply ELone.
  - change ((1 <? slen (String c (String x f)))%nat) with true. cbv iota.
    change (String c "" ++ ("." ++ String x f) ++ ?u) with (String c (("." ++ String x f) ++ u)).
    rewrite <- append_assoc_s. apply EMore; auto. discriminate.
Qed.

(** The texts are determined. *)
Lemma same_digits a : forall b, digits a -> digits b -> slen a = slen b -> val a = val b -> a = b.
Proof.
  induction a as [|c a IH]; intros [|c' b] Da Db L V; try discriminate L; auto.
  rewrite !value_cons in V. injection L as L.
  assert (Ha : digits a) by (intros x I; apply Da; now right). assert (Hb : digits b) by (intros x I; apply Db; now right).
  pose proof (value_high a Ha) as A. pose proof (value_high b Hb) as B. rewrite <- L in *.
  pose proof (Da c (or_introl eq_refl)) as C1. pose proof (Db c' (or_introl eq_refl)) as C2.
  set (P := 10 ^ len a) in *. assert (PP : 0 < P) by (apply pow10_pos; lia).
  assert (EC : Z.of_N (N_of_ascii c - 48) = Z.of_N (N_of_ascii c' - 48)) by nia.
  f_equal.
  - rewrite <- (ascii_N_embedding c), <- (ascii_N_embedding c'). f_equal. lia.
  - apply IH; auto. rewrite EC in V. lia.
Qed.
Lemma same_whole a b : (a = "0" \/ significant a) -> (b = "0" \/ significant b) -> val a = val b -> a = b.
Proof.
  assert (X : forall a, significant a -> 0 < val a).
  { intros c H. destruct (value_low c H). pose proof (pow10_pos (len c - 1)). lia. }
  intros [->|A] [->|B] V; auto.
  - exfalso. specialize (X _ B). cbn in V. lia.
  - exfalso. specialize (X _ A). cbn in V. lia.
  - destruct (value_low a A) as [A1 A2], (value_low b B) as [B1 B2], A as [Da _], B as [Db _].
    pose proof (value_high a Da). pose proof (value_high b Db). apply same_digits; auto.
    assert (len a - 1 < len b) by (apply (Z.pow_lt_mono_r_iff 10); lia).
    assert (len b - 1 < len a) by (apply (Z.pow_lt_mono_r_iff 10); lia). lia.
Qed.
(** Both kinds at once: a whole part and a fraction that may be empty. *)
Definition in_parts (d : string) (p : Z) (i f : string) : Prop :=
  (i = "0" \/ significant i) /\ digits f /\ trimmed f /\ stands d p (digits_value (i ++ f)) (slen f).
Lemma parts_shorter d p i f i' f' : in_parts d p i f -> in_parts d p i' f' -> (slen f' <= slen f)%nat.
Proof.
  intros (A & Df & T & S1) (A' & Df' & T' & S2). destruct (Nat.le_gt_cases (slen f') (slen f)) as [|L]; auto. exfalso.
  pose proof (stands_ratio _ _ _ _ _ _ S1 S2) as R.
  assert (Df2 : digits (i' ++ f')) by (apply digits_app; auto; destruct A' as [->|A']; [intros c [<-|[]]; vm_compute; split; discriminate|apply A']).
  assert (NE : f' <> "") by (intros ->; cbn in L; lia).
  assert (NZ : val (i' ++ f') mod 10 <> 0).
  { apply trimmed_zero; auto; [intros E; destruct i'; cbn in E; [now destruct NE|discriminate]|now apply trimmed_app]. }
  apply NZ. replace (Z.of_nat (slen f')) with (Z.of_nat (slen f' - slen f - 1) + 1 + Z.of_nat (slen f)) in R by lia.
  rewrite !Z.pow_add_r, Z.mul_assoc in R by lia. apply Z.mul_reg_r in R; [|apply Z.pow_nonzero; lia].
  rewrite <- R, Z.mul_assoc, Z.pow_1_r. apply Z.mod_mul. lia.
Qed.
Lemma parts_same d p i f i' f' : in_parts d p i f -> in_parts d p i' f' -> i = i' /\ f = f'.
Proof.
  intros P P'. pose proof (parts_shorter _ _ _ _ _ _ P P') as L. pose proof (parts_shorter _ _ _ _ _ _ P' P) as L'.
  assert (EL : slen f = slen f') by lia. destruct P as (A & Df & T & S1), P' as (A' & Df' & T' & S2).
  pose proof (stands_ratio _ _ _ _ _ _ S1 S2) as R. rewrite EL in R.
  apply Z.mul_reg_r in R; [|apply Z.pow_nonzero; lia].
  rewrite !value_app, !N2Z.inj_add, !N2Z.inj_mul, !N2Z.inj_pow, !nat_N_Z, <- EL in R. change (Z.of_N 10) with 10 in R.
  pose proof (value_high f Df) as B. pose proof (value_high f' Df') as B'. rewrite <- EL in B'.
  set (Q := 10 ^ len f) in *.
  assert (EV : val i = val i').
  { assert (0 < Q) by (apply pow10_pos; lia). nia. }
  split; [now apply same_whole|]. apply same_digits; auto. rewrite EV in R. lia.
Qed.
Lemma plain_unique d p point t t' : plain_text d p point t -> plain_text d p point t' -> t = t'.
Proof.
  assert (TN : trimmed "") by (intros [|] E; discriminate E). assert (DN : digits "") by (intros c []).
  assert (N : forall i, i ++ "" = i) by (intros; apply append_nil_r).
  intros [i f A Df NE T S1|i A S1] [i' f' A' Df' NE' T' S2|i' A' S2].
  - destruct (parts_same d p i f i' f') as [-> ->]; auto; exact (conj A (conj Df (conj T S1))) || exact (conj A' (conj Df' (conj T' S2))).
  - destruct (parts_same d p i f i' "") as [_ E]; [exact (conj A (conj Df (conj T S1)))| |congruence].
    refine (conj (or_intror A') (conj DN (conj TN _))). now rewrite N.
  - destruct (parts_same d p i "" i' f') as [_ E]; [|exact (conj A' (conj Df' (conj T' S2)))|congruence].
    refine (conj (or_intror A) (conj DN (conj TN _))). now rewrite N.
  - destruct (parts_same d p i "" i' "") as [-> _]; auto; refine (conj (or_intror _) (conj DN (conj TN _))); auto; now rewrite N.
Qed.
Lemma exponent_unique d p plus t t' : exponent_text d p plus t -> exponent_text d p plus t' -> t = t'.
Proof.
  intros [c z E Z|c f z E NE Z] [c' z' E' Z'|c' f' z' E' NE' Z']; rewrite E in E'; inversion E'; subst; try congruence.
  - replace z' with z; auto. destruct Z as [[? ?]|[? ?]], Z' as [[? ?]|[? ?]]; congruence || lia.
  - replace z' with z; auto. destruct Z as [[? ?]|[? ?]], Z' as [[? ?]|[? ?]]; congruence || lia.
Qed.

Lemma compare_flip m e m' e' : SFltb (S754_finite false m e) (S754_finite false m' e') =
  negb (SFleb (S754_finite false m' e') (S754_finite false m e)).
Proof.
  unfold SFltb, SFleb, SFcompare. destruct (Z.compare_spec e e'), (Z.compare_spec e' e); try lia; auto.
  change (Pos.compare_cont Eq ?a ?b) with (Pos.compare a b). rewrite (Pos.compare_antisym m m').
  now destruct (Pos.compare m m').
Qed.
Theorem rust_text digs m e : shortest m e (digs m e) ->
  let x := S754_finite false m e in
  if SFltb x (round_decimal (10 ^ 16) 0) && SFleb (round_decimal 1 4) x
  then plain_text (fst (digs m e)) (snd (digs m e)) true (rust_num digs x)
  else exponent_text (fst (digs m e)) (snd (digs m e)) "" (rust_num digs x).
Proof.
  intros Sh x. pose proof (shortest_trimmed m e _ Sh) as T. destruct Sh as (Sg & _). unfold rust_num, x.
  change (SFabs (S754_finite false m e)) with (S754_finite false m e).
  assert (C1 : SFltb (S754_finite false m e) (round_decimal (10 ^ 16) 0) = negb (SFleb (round_decimal (10 ^ 16) 0) (S754_finite false m e))).
  { set (b := round_decimal (10 ^ 16) 0). vm_compute in b. apply compare_flip. }
  assert (C2 : SFleb (round_decimal 1 4) (S754_finite false m e) = negb (SFltb (S754_finite false m e) (round_decimal 1 4))).
  { set (b := round_decimal 1 4). vm_compute in b. unfold b. rewrite compare_flip, negb_involutive. reflexivity. }
  rewrite C1, C2, <- negb_orb. destruct (SFleb _ _ || SFltb _ _); cbn [negb append].
  - destruct (digs m e) as [d p]. now apply exp_text.
  - destruct (digs m e) as [d p]. now apply (dec_text d p true).
Qed.
Theorem js_text digs m e : shortest m e (digs m e) ->
  let x := S754_finite false m e in
  if (-6 <? snd (digs m e)) && (snd (digs m e) <=? 21)
  then plain_text (fst (digs m e)) (snd (digs m e)) false (js_num digs x)
  else exponent_text (fst (digs m e)) (snd (digs m e)) "+" (js_num digs x).
Proof.
  intros Sh x. pose proof (shortest_trimmed m e _ Sh) as T. destruct Sh as (Sg & _). unfold js_num, x.
  destruct (digs m e) as [d p]. cbn [fst snd append] in *. destruct ((-6 <? p) && (p <=? 21)).
  - now apply (dec_text d p false).
  - now apply exp_text.
Qed.
