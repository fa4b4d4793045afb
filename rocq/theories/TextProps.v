(** The theorems about printed texts with the texts of RustText.v. *)
From Coq Require Import ZArith Floats.SpecFloat.
From Verif Require Import Base F64 Token Ast Scanner Parser Resolver Show Driver Segment TestsParser
  SpecLex SpecScan SpecNumber SpecResolve SpecShow SpecDriver SpecMessages SpecText RustText RustDigits
  ScanFinal ResolveFinal ResolveProps DriverFacts DriverText DriverProps TextFacts TextNumber DigitFacts P_Driver P_Messages.
Import SpecNumber.
Local Open Scope string_scope.

Lemma shortest_digits_finds up : finds (shortest_digits up).
Proof. apply shortest_finds. intros m e L. exact (proj1 (shortest_literal up m e L)). Qed.

Lemma paste_back_refuted : ~ (forall digs x, finds digs -> literal x -> parse_f64 (rust_num digs x) = Some x).
Proof.
  intros H. specialize (H (shortest_digits true) (round_decimal (10 ^ 16) 0) (shortest_digits_finds true)).
  assert (L : literal (round_decimal (10 ^ 16) 0)) by (exists "10000000000000000"; vm_compute; reflexivity).
  specialize (H L). vm_compute in H. discriminate H.
Qed.

Lemma zero_and_infinity digs x : literal x ->
  (exists m e, x = S754_finite false m e) \/
  x = S754_zero false /\ rust_num digs x = "0.0" /\ js_num digs x = "0" \/
  x = S754_infinity false /\ rust_num digs x = "inf" /\ js_num digs x = "Infinity".
Proof. intros L. destruct (literal_cases x L) as [->|[->|(m & e & ->)]]; eauto 6. Qed.

Lemma real_quotes esc r j : quotes (f_str (real_formats esc r j)).
Proof. apply rust_str_quotes. Qed.
Lemma real_rust esc up j : writes_numbers (f_num (real_formats esc (shortest_digits up) j)).
Proof. apply rust_num_writes, shortest_digits_finds. Qed.
Lemma real_js esc r up : writes_numbers (f_js (real_formats esc r (shortest_digits up))).
Proof. apply js_num_writes, shortest_digits_finds. Qed.

Lemma real_output U oc esc up up' name name' gs gs' : sane U -> valid_source gs -> valid_source gs' ->
  let F := real_formats esc (shortest_digits up) (shortest_digits up') in
  p_end (main_file U oc F name (Contents gs)) = Exited 0 ->
  p_out (main_file U oc F name (Contents gs)) = p_out (main_file U oc F name' (Contents gs')) ->
  exists l, resolves U oc gs l /\ resolves U oc gs' l.
Proof. intros Sn V V' F. apply C61_output_determines_tree; auto; [apply real_quotes|apply real_rust]. Qed.
Lemma real_thrown U oc esc up up' gs gs' t : sane U -> valid_source gs -> valid_source gs' ->
  breaks_lines gs -> breaks_lines gs' ->
  let F := real_formats esc (shortest_digits up) (shortest_digits up') in
  parse_string U oc F gs = Done (Err t) -> parse_string U oc F gs' = Done (Err t) ->
  exists cs, fails U oc gs cs /\ fails U oc gs' cs.
Proof. intros Sn V V' B B' F. apply C73_thrown_text; auto. apply real_quotes. Qed.
Lemma real_page U oc esc up up' gs gs' l l' : sane U -> valid_source gs -> valid_source gs' ->
  let F := real_formats esc (shortest_digits up) (shortest_digits up') in
  resolves U oc gs l -> resolves U oc gs' l' ->
  (on_change U oc F gs = on_change U oc F gs' <-> map blur l = map blur l').
Proof. intros Sn V V' F. apply C54_page_up_to_booleans; auto. apply real_js. Qed.
Lemma real_paragraph esc up up' c c' :
  let F := real_formats esc (shortest_digits up) (shortest_digits up') in
  error_paragraph F c = error_paragraph F c' -> c = c'.
Proof. intros F. apply C52_error_paragraph, real_quotes. Qed.
