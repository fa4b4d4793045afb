(** Common data of the model: outcomes, results, strings, machine integers. *)
From Coq Require Export String Ascii List Bool Arith NArith Lia.
Export ListNotations.
Open Scope string_scope.
Open Scope list_scope.
Open Scope nat_scope.
Notation slen := String.length.
Notation length := List.length.

(** ** Outcomes of running code.
    [Panicked] is a Rust panic, [Diverged] a loop that never exits,
    [OutOfFuel] an exhausted recursion bound of the model (proved
    unreachable). *)
Inductive outcome (A : Type) : Type :=
| Done (a : A)
| Panicked (why : string)
| Diverged
| OutOfFuel.
Arguments Done {A} a.
Arguments Panicked {A} why.
Arguments Diverged {A}.
Arguments OutOfFuel {A}.

Definition obind {A B} (m : outcome A) (f : A -> outcome B) : outcome B :=
  match m with
  | Done a => f a
  | Panicked w => Panicked w
  | Diverged => Diverged
  | OutOfFuel => OutOfFuel
  end.
Notation "'olet' x <- m ;; k" := (obind m (fun x => k))
  (at level 200, x pattern, m at level 100, k at level 200, right associativity).

(** Rust's [Result]. *)
Inductive result (A E : Type) : Type :=
| Ok (a : A)
| Err (e : E).
Arguments Ok {A E} a.
Arguments Err {A E} e.

(** ** Strings.
    A Rust [&str] is a Coq [string], i.e. its UTF-8 bytes.  *)

(** [str::is_char_boundary] of the Rust standard library: index 0 and the
    length are boundaries, otherwise the byte must not be a continuation byte
    (0x80..0xBF). *)
Definition is_char_boundary (s : string) (i : nat) : bool :=
  if Nat.eqb i 0 then true
  else match String.get i s with
       | None => Nat.eqb i (slen s)
       | Some c => (N_of_ascii c <? 128)%N || (192 <=? N_of_ascii c)%N
       end.

(** [&s[a..b]]: panics ([None]) unless a <= b <= len and both are character
    boundaries. *)
Definition slice (s : string) (a b : nat) : option string :=
  if (a <=? b) && (b <=? slen s) && is_char_boundary s a && is_char_boundary s b
  then Some (String.substring a (b - a) s)
  else None.

(** [s.chars().next()]: decode the first code point of valid UTF-8. *)
Definition first_char (s : string) : option N :=
  match s with
  | EmptyString => None
  | String c r =>
    let b0 := N_of_ascii c in
    let cont k := match String.get k r with
                  | None => 0%N
                  | Some d => (N_of_ascii d mod 64)%N
                  end in
    if (b0 <? 128)%N then Some b0
    else if (b0 <? 224)%N then Some ((b0 mod 32) * 64 + cont 0%nat)%N
    else if (b0 <? 240)%N then
      Some ((b0 mod 16) * 4096 + cont 0%nat * 64 + cont 1%nat)%N
    else Some ((b0 mod 8) * 262144 + cont 0%nat * 4096 + cont 1%nat * 64 + cont 2%nat)%N
  end.

(** Concatenation of a list of strings. *)
Fixpoint sconcat (l : list string) : string :=
  match l with
  | nil => EmptyString
  | s :: r => String.append s (sconcat r)
  end.

(** ASCII control characters used by the scanner. *)
Definition s_nl : string := String (ascii_of_nat 10) EmptyString.
Definition s_cr : string := String (ascii_of_nat 13) EmptyString.
Definition s_tab : string := String (ascii_of_nat 9) EmptyString.
Definition s_quote : string := String (ascii_of_nat 34) EmptyString.
Definition s_backslash : string := String (ascii_of_nat 92) EmptyString.
(** CR LF, which UAX #29 rule GB3 makes a single grapheme cluster. *)
Definition s_crlf : string := String (ascii_of_nat 13) s_nl.

(** ** Machine integers: [N] with the bound written out. *)
Definition u8_max : N := 255.
Definition u16_max : N := 65535.
Definition u32_max : N := 4294967295.
(** [u16::saturating_add(1)], [u32::saturating_add(1)],
    [u16::saturating_sub(1)]. *)
Definition sat_succ16 (n : N) : N := N.min u16_max (n + 1).
Definition sat_succ32 (n : N) : N := N.min u32_max (n + 1).
Definition sat_pred (n : N) : N := (n - 1)%N.
(** [x as u8] and [x as u16] of a [usize]. *)
Definition as_u8 (n : nat) : N := (N.of_nat n mod 256)%N.
Definition as_u16 (n : nat) : N := (N.of_nat n mod 65536)%N.
