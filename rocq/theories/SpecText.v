(** Specification of quoted strings: character by character.  [encode] is UTF-8. *)
From Coq Require Import ZArith HexadecimalString.
From Verif Require Import Base RustText.
Local Open Scope string_scope.

(** Unicode scalar values, and the text they make up. *)
Definition scalar (c : N) : Prop := (c < 55296 \/ 57344 <= c < 1114112)%N.
Definition utf8 (cs : list N) : string := sconcat (map encode cs).

(** The characters that have an escape of their own. *)
Definition own_escapes : list (N * string) := [(0, "0"); (9, "t"); (10, "n"); (13, "r"); (34, s_quote); (92, s_backslash)]%N.
(** [quoted esc c t]: inside quotes the character [c] is written [t]. *)
Inductive quoted (esc : N -> bool) (c : N) : string -> Prop :=
| QOwn t : In (c, t) own_escapes -> quoted esc c (s_backslash ++ t)
| QHex : ~ In c (map fst own_escapes) -> esc c = true ->
    quoted esc c (s_backslash ++ "u{" ++ NilZero.string_of_uint (N.to_hex_uint c) ++ "}")
| QItself : ~ In c (map fst own_escapes) -> esc c = false -> quoted esc c (encode c).

(** ** Numbers *)
From Coq Require Import Floats.SpecFloat.
From Verif Require Import F64 Show SpecNumber.

(** The decimal [0.d * 10^p] is [m / 10^k]. *)
Definition stands (d : string) (p : Z) (m : N) (k : nat) : Prop :=
  (Z.of_N m * 10 ^ Z.max 0 (Z.of_nat (String.length d) - p) =
   Z.of_N (digits_value d) * 10 ^ Z.max 0 (p - Z.of_nat (String.length d)) * 10 ^ Z.of_nat k)%Z.
(** Digits that start with no zero. *)
Definition significant (d : string) : Prop :=
  digits d /\ match d with EmptyString => False | String c _ => c <> "0"%char end.
(** Read as a decimal, [0.d * 10^p] is [x]. *)
Definition reads_as (x : f64) (d : string) (p : Z) : Prop :=
  exists m k, stands d p m k /\ rounded m k x.
(** What is required of the search for digits. *)
Definition finds (digs : positive -> Z -> found) : Prop :=
  forall m e, (exists s, parse_f64 s = Some (S754_finite false m e)) ->
  significant (fst (digs m e)) /\ reads_as (S754_finite false m e) (fst (digs m e)) (snd (digs m e)).

(** [0.d * 10^p] is at least as near to [m * 2^e] as [0.d' * 10^p']. *)
Definition as_near (m : positive) (e : Z) (d : string) (p : Z) (d' : string) (p' : Z) : Prop :=
  forall n k n' k', stands d p n k -> stands d' p' n' k' ->
  (gap n k (Zpos m) e * 10 ^ Z.of_nat k' <= gap n' k' (Zpos m) e * 10 ^ Z.of_nat k)%Z.
(** Digits that read as [m * 2^e]; there are none that are fewer, and none that are as many and nearer. *)
Definition shortest (m : positive) (e : Z) (x : found) : Prop :=
  significant (fst x) /\ reads_as (S754_finite false m e) (fst x) (snd x) /\
  forall d' p', significant d' -> reads_as (S754_finite false m e) d' p' ->
    (String.length (fst x) <= String.length d')%nat /\
    (String.length (fst x) = String.length d' -> as_near m e (fst x) (snd x) d' p').

(** ** The layout of numbers *)
(** Digits that end with no zero. *)
Definition trimmed (d : string) : Prop := forall a, d <> a ++ "0".
(** The text of [0.d * 10^p] without exponent: no zeros that are not needed.  [point]: a whole number has [.0] behind
    it. *)
Inductive plain_text (d : string) (p : Z) (point : bool) : string -> Prop :=
| PFraction i f : i = "0" \/ significant i -> digits f -> f <> "" -> trimmed f ->
    stands d p (digits_value (i ++ f)) (String.length f) -> plain_text d p point (i ++ "." ++ f)
| PWhole i : significant i -> stands d p (digits_value i) 0 ->
    plain_text d p point (i ++ (if point then ".0" else "")).
(** The text with exponent: one digit, the others behind a point, and the power of ten. *)
Inductive exponent_text (d : string) (p : Z) (plus : string) : string -> Prop :=
| ELone c z : d = String c "" -> (0 <= p - 1 /\ z = plus \/ p - 1 < 0 /\ z = "-")%Z ->
    exponent_text d p plus (String c ("e" ++ z ++ decimal (Z.to_N (Z.abs (p - 1)))))
| EMore c f z : d = String c f -> f <> "" -> (0 <= p - 1 /\ z = plus \/ p - 1 < 0 /\ z = "-")%Z ->
    exponent_text d p plus (String c ("." ++ f ++ "e" ++ z ++ decimal (Z.to_N (Z.abs (p - 1))))).
