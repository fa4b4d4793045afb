(** [f64] literals.

    The scanner calls [value.parse::<f64>()] (src/scanner.rs:527) on texts made
    of digits and at most one dot.  Rust documents that conversion as correctly
    rounded (to nearest, ties to even); it is written out here on Coq's
    [SpecFloat] (binary64), for texts over the alphabet [0-9.].  Signs,
    exponents, "inf" and "nan", which Rust also accepts, never reach the call
    and are [None] here. *)
From Coq Require Import ZArith.
From Coq Require Import Floats.SpecFloat.
From Verif Require Import Base.

Definition f64 : Type := spec_float.

(** The decimal digit value of a byte. *)
Definition digit_val (c : ascii) : option N :=
  let n := N_of_ascii c in
  if ((48 <=? n) && (n <=? 57))%N then Some (n - 48)%N else None.

(** Reads digits, at most one dot, and nothing else.  Returns the integer made
    of all digits, the number of digits after the dot, and the digit count. *)
Fixpoint read_decimal (s : string) (dot : bool) (acc : N) (frac cnt : nat)
  : option (N * nat * nat) :=
  match s with
  | EmptyString => Some (acc, frac, cnt)
  | String c r =>
    match digit_val c with
    | Some d => read_decimal r dot (acc * 10 + d)%N
                             (if dot then S frac else frac) (S cnt)
    | None => if Ascii.eqb c "."%char then
                if dot then None else read_decimal r true acc frac cnt
              else None
    end
  end.

(** [m / 10^k] rounded to the nearest binary64, ties to even. *)
Definition round_decimal (m : N) (k : nat) : f64 :=
  match m with
  | N0 => S754_zero false
  | Npos p =>
    let '(q, e, l) :=
      SFdiv_core_binary 53 1024 (Zpos p) 0 (Z.pow 10 (Z.of_nat k)) 0 in
    binary_round_aux 53 1024 false q e l
  end.

(** [str::parse::<f64>], see above. *)
Definition parse_f64 (s : string) : option f64 :=
  match read_decimal s false 0 0 0 with
  | Some (m, k, S _) => Some (round_decimal m k)
  | _ => None
  end.
