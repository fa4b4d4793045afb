(** A concrete grapheme segmentation and code-point classification, used to run
    the model on literal texts (tests, examples and witnesses).

    [segment] implements the part of UAX #29 that [unicode-segmentation]
    applies to the texts used here: a cluster is one code point, except that
    CR LF is one cluster (rule GB3) and the combining marks U+0300..U+036F
    join the preceding code point (rule GB9) unless that is a control
    character (rule GB4).  The theorems do not depend on it: they quantify over
    all cluster lists. *)
From Verif Require Import Base Scanner.

(** Length in bytes of the UTF-8 sequence that starts with this byte. *)
Definition utf8_len (c : ascii) : nat :=
  let n := N_of_ascii c in
  if (n <? 128)%N then 1 else if (n <? 224)%N then 2
  else if (n <? 240)%N then 3 else 4.

(** Split UTF-8 text into code points (as byte strings). *)
Fixpoint code_points (fuel : nat) (s : string) : list string :=
  match fuel, s with
  | S n, String c _ =>
    String.substring 0 (utf8_len c) s
      :: code_points n (String.substring (utf8_len c)
                                         (slen s - utf8_len c) s)
  | _, _ => nil
  end.

Definition is_mark (g : string) : bool :=
  match first_char g with
  | Some c => ((768 <=? c) && (c <=? 879))%N
  | None => false
  end.
Definition is_control (g : string) : bool :=
  match first_char g with Some c => (c <? 32)%N | None => false end.

Fixpoint join_clusters (l : list string) : list string :=
  match l with
  | nil => nil
  | c :: r =>
    match join_clusters r with
    | d :: r' =>
      if String.eqb c s_cr && String.eqb d s_nl then s_crlf :: r'
      else if is_mark d && negb (is_control c) then String.append c d :: r'
      else c :: d :: r'
    | nil => [c]
    end
  end.

Definition segment (s : string) : list string :=
  join_clusters (code_points (slen s) s).

(** ASCII letters and digits, Latin-1 letters and Greek. *)
Definition sample_alphabetic (c : N) : bool :=
  ((65 <=? c) && (c <=? 90) || (97 <=? c) && (c <=? 122) ||
   (192 <=? c) && (c <=? 591) && negb (c =? 215) && negb (c =? 247) ||
   (880 <=? c) && (c <=? 1023))%N.
Definition sample_unicode : unicode :=
  mkUnicode sample_alphabetic
            (fun c => sample_alphabetic c || ((48 <=? c) && (c <=? 57))%N).

(** Scan a literal text. *)
Definition scan_text (s : string) := scan_tokens sample_unicode (segment s).
