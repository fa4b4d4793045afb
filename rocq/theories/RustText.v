(** How the standard library writes strings and numbers: [<str as Debug>::fmt], [<f64 as Debug>::fmt] and, for the
    demo page, JavaScript's [Number.prototype.toString].  They are used by the derived [Debug] impls of src/ast.rs
    (printed by src/main.rs:108), by src/error.rs:79 (wasm errors) and by index.html:99; elsewhere in this development
    they are the parameter [formats] of Show.v.

    Left open: which characters Rust calls printable (its Unicode tables, the parameter [esc]), and the search for the
    digits of a number (Grisu/Dragon in Rust, the engine's own in JavaScript; the parameter [digs]). *)
From Coq Require Import ZArith HexadecimalString Floats.SpecFloat.
From Verif Require Import Base F64 Token Ast Show.
Local Open Scope string_scope.

(** ** Strings *)
(** [char::encode_utf8] *)
Definition byte (n : N) : ascii := ascii_of_N n.
Definition encode (c : N) : string :=
  if (c <? 128)%N then String (byte c) ""
  else if (c <? 2048)%N then String (byte (192 + c / 64)) (String (byte (128 + c mod 64)) "")
  else if (c <? 65536)%N then
    String (byte (224 + c / 4096)) (String (byte (128 + c / 64 mod 64)) (String (byte (128 + c mod 64)) ""))
  else
    String (byte (240 + c / 262144)) (String (byte (128 + c / 4096 mod 64))
      (String (byte (128 + c / 64 mod 64)) (String (byte (128 + c mod 64)) ""))).
(** How many bytes the character has that starts with this byte. *)
Definition width (a : ascii) : nat :=
  let n := N_of_ascii a in
  if (n <? 128)%N then 1 else if (n <? 224)%N then 2 else if (n <? 240)%N then 3 else 4.

(** [char::escape_unicode]: \u{1f600} *)
Definition unicode_escape (c : N) : string :=
  s_backslash ++ "u{" ++ NilZero.string_of_uint (N.to_hex_uint c) ++ "}".
(** [char::escape_debug_ext], as [Debug] for [str] calls it: single quotes are not escaped, double quotes and grapheme
    extenders are.  [esc c]: the character is a grapheme extender or not printable. *)
Definition debug_char (esc : N -> bool) (c : N) (bytes : string) : string :=
  if (c =? 0)%N then s_backslash ++ "0"
  else if (c =? 9)%N then s_backslash ++ "t"
  else if (c =? 13)%N then s_backslash ++ "r"
  else if (c =? 10)%N then s_backslash ++ "n"
  else if (c =? 34)%N then s_backslash ++ s_quote
  else if (c =? 92)%N then s_backslash ++ s_backslash
  else if esc c then unicode_escape c
  else bytes.
(** The loop over [char_indices]; [skip] bytes of the current character remain to be passed over.  A Rust string is
    valid UTF-8, so that the comparison with [encode] always succeeds; it is here because strings of the model may be
    anything. *)
Fixpoint debug_chars (esc : N -> bool) (skip : nat) (s : string) : string :=
  match s with
  | "" => ""
  | String a r =>
    match skip with
    | S k => debug_chars esc k r
    | O =>
      let bytes := String.substring 0 (width a) s in
      match first_char s with
      | Some c => if String.eqb bytes (encode c) then debug_char esc c bytes ++ debug_chars esc (width a - 1) r
                  else String a (debug_chars esc 0 r)
      | None => ""
      end
    end
  end.
(** [<str as Debug>::fmt] *)
Definition rust_str (esc : N -> bool) (s : string) : string := s_quote ++ debug_chars esc 0 s ++ s_quote.

(** ** Numbers *)
(** The search for digits gives [d] and [p]: the number is [0.d * 10^p], to within rounding. *)
Definition found : Type := (string * Z)%type.
Fixpoint zeros (n : nat) : string := match n with O => "" | S n => String "0" (zeros n) end.
(** core::num::flt2dec, [digits_to_dec_str] *)
Definition dec_str (x : found) (frac : nat) : string :=
  let '(d, p) := x in
  let n := slen d in
  if (p <=? 0)%Z then
    let z := Z.to_nat (- p) in
    "0." ++ zeros z ++ d ++ zeros (frac - (n + z))
  else
    let q := Z.to_nat p in
    if (q <? n)%nat then String.substring 0 q d ++ "." ++ String.substring q (n - q) d ++ zeros (frac - (n - q))
    else d ++ zeros (q - n) ++ (match frac with O => "" | _ => "." ++ zeros frac end).
(** core::num::flt2dec, [digits_to_exp_str] without a minimum of digits; [plus] is what precedes an exponent that is
    not negative (nothing in Rust, + in JavaScript). *)
Definition exp_str (x : found) (plus : string) : string :=
  let '(d, p) := x in
  String.substring 0 1 d ++
  (if (1 <? slen d)%nat then "." ++ String.substring 1 (slen d - 1) d else "") ++
  "e" ++ (if (p - 1 <? 0)%Z then "-" else plus) ++ decimal (Z.abs_N (p - 1)).

(** [<f64 as Debug>::fmt] without precision (core::fmt::float, [float_to_general_debug]): scientific from [1e16] up and
    below [1e-4]; otherwise decimal with at least one digit behind the point. *)
Definition rust_num (digs : positive -> Z -> found) (x : f64) : string :=
  match x with
  | S754_nan => "NaN"
  | S754_infinity s => (if s then "-" else "") ++ "inf"
  | S754_zero s => (if s then "-" else "") ++ "0.0"
  | S754_finite s m e =>
    (if s then "-" else "") ++
    (if SFleb (round_decimal (10 ^ 16) 0) (SFabs x) || SFltb (SFabs x) (round_decimal 1 4)
     then exp_str (digs m e) "" else dec_str (digs m e) 1)
  end.
(** ECMA-262, Number::toString *)
Definition js_num (digs : positive -> Z -> found) (x : f64) : string :=
  match x with
  | S754_nan => "NaN"
  | S754_infinity s => (if s then "-" else "") ++ "Infinity"
  | S754_zero _ => "0"
  | S754_finite s m e =>
    (if s then "-" else "") ++
    (let '(d, n) := digs m e in
     if ((-6 <? n) && (n <=? 21))%Z then dec_str (d, n) 0 else exp_str (d, n) "+")
  end.

(** The formats of Show.v as they are. *)
Definition real_formats (esc : N -> bool) (rust js : positive -> Z -> found) : formats :=
  mkFormats (rust_str esc) (rust_num rust) (js_num js).
