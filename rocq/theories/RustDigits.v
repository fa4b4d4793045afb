(** The digits of a number: the shortest that read back as the number and, of those, the nearest to it.  This is what
    core::num::flt2dec ([format_shortest]) and ECMA-262 (Number::toString, with its note) promise; how they search is
    not modelled.  Where two are equally near [up] decides. *)
From Coq Require Import ZArith Floats.SpecFloat.
From Verif Require Import Base F64 Token Ast Show RustText.
Local Open Scope Z_scope.

(** The number [m * 2^e] as a fraction, and the integer part of [m * 2^e * 10^s]. *)
Definition numer (m : positive) (e : Z) : Z := Zpos m * 2 ^ Z.max 0 e.
Definition denom (e : Z) : Z := 2 ^ Z.max 0 (- e).
Definition floor10 (m : positive) (e s : Z) : Z :=
  numer m e * 10 ^ Z.max 0 s / (denom e * 10 ^ Z.max 0 (- s)).
(** The [p] with [10^(p-1) <= m * 2^e < 10^p]. *)
Definition decade (m : positive) (e : Z) : Z :=
  Z.of_nat (slen (decimal (Z.to_N (floor10 m e 400)))) - 400.

(** [c / 10^s] reads back as [m * 2^e]. *)
Definition reads_back (m : positive) (e c s : Z) : bool :=
  match round_decimal (Z.to_N (c * 10 ^ Z.max 0 (- s))) (Z.to_nat (Z.max 0 s)) with
  | S754_finite false m' e' => Pos.eqb m m' && Z.eqb e e'
  | _ => false
  end.
(** Without the zeros at the end. *)
Fixpoint strip (d : string) : string :=
  match d with
  | EmptyString => EmptyString
  | String c r =>
    match strip r with
    | EmptyString => if Ascii.eqb c "0" then EmptyString else String c EmptyString
    | r' => String c r'
    end
  end.
Definition digits_of (c s : Z) : found :=
  (strip (decimal (Z.to_N c)), Z.of_nat (slen (decimal (Z.to_N c))) - s).

Fixpoint search (up : bool) (m : positive) (e : Z) (k : nat) (n : Z) : option found :=
  match k with
  | O => None
  | S k =>
    let s := n - decade m e in
    let lo := floor10 m e s in
    let hi := lo + 1 in
    let twice := 2 * (numer m e * 10 ^ Z.max 0 s) in
    let middle := (lo + hi) * (denom e * 10 ^ Z.max 0 (- s)) in
    match reads_back m e lo s, reads_back m e hi s with
    | true, false => Some (digits_of lo s)
    | false, true => Some (digits_of hi s)
    | true, true =>
      Some (digits_of (if twice <? middle then lo else if middle <? twice then hi else if up then hi else lo) s)
    | false, false => search up m e k (n + 1)
    end
  end.
(** Seventeen digits are always enough (C93). *)
Definition shortest_digits (up : bool) (m : positive) (e : Z) : found :=
  match search up m e 17 1 with Some x => x | None => (EmptyString, 0) end.
