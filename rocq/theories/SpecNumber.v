(** What a number literal is worth: the binary64 nearest to the decimal that
    is written, ties going to the even mantissa, and infinity from
    [2^1024 - 2^970] up.  Everything is stated on integers; nothing here
    refers to how [F64.v] computes. *)
From Coq Require Import ZArith.
From Coq Require Import Floats.SpecFloat.
From Verif Require Import Base F64.
Local Open Scope Z_scope.

(** [q * 2^g] is a finite binary64 number (every one has such a form). *)
Definition binary64 (q g : Z) : Prop := Z.abs q < 2 ^ 53 /\ -1074 <= g <= 971.

(** The distance from [q * 2^g] to [m / 10^k], times [10^k * 2^1074]. *)
Definition gap (m : N) (k : nat) (q g : Z) : Z :=
  Z.abs (q * 2 ^ (g + 1074) * 10 ^ Z.of_nat k - Z.of_N m * 2 ^ 1074).

(** No binary64 number is nearer to [m / 10^k] than [p * 2^e], and if another
    one is as near then [p] is even. *)
Definition nearest (m : N) (k : nat) (p e : Z) : Prop :=
  forall q g, binary64 q g ->
  gap m k p e <= gap m k q g /\
  (gap m k p e = gap m k q g ->
   q * 2 ^ (g + 1074) = p * 2 ^ (e + 1074) \/ Z.even p = true).

(** [m / 10^k] is at least [2^1024 - 2^970], the middle between the largest
    finite number and [2^1024]. *)
Definition overflows (m : N) (k : nat) : Prop :=
  (2 ^ 54 - 1) * 2 ^ 970 * 10 ^ Z.of_nat k <= Z.of_N m.

(** [f] is [m / 10^k] rounded to binary64. *)
Definition rounded (m : N) (k : nat) (f : f64) : Prop :=
  match f with
  | S754_zero false => nearest m k 0 (-1074)
  | S754_finite false p e =>
    binary64 (Zpos p) e /\ (2 ^ 52 <= Zpos p \/ e = -1074) /\
    ~ overflows m k /\ nearest m k (Zpos p) e
  | S754_infinity false => overflows m k
  | _ => False
  end.

(** The value of the digits [s], the leftmost weighing most. *)
Fixpoint digits_value (s : string) : N :=
  match s with
  | EmptyString => 0
  | String c r => (N_of_ascii c - 48) * 10 ^ N.of_nat (String.length r) + digits_value r
  end%N.

(** [s] is made of decimal digits. *)
Definition digits (s : string) : Prop :=
  forall c, In c (list_ascii_of_string s) -> (48 <= N_of_ascii c <= 57)%N.
