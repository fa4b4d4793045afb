(** Quoted strings can be read back. *)
From Coq Require Import ZArith HexadecimalString HexadecimalPos HexadecimalN Lia.
From Verif Require Import Base RustText SpecText SpecDriver StrFacts.
Local Open Scope string_scope.

(** ** UTF-8 *)
Lemma byte_value n : (n < 256)%N -> N_of_ascii (byte n) = n.
Proof. apply N_ascii_embedding. Qed.
Lemma value_byte a : byte (N_of_ascii a) = a.
Proof. apply ascii_N_embedding. Qed.
Lemma value_bound a : (N_of_ascii a < 256)%N.
Proof. destruct a as [[] [] [] [] [] [] [] []]; reflexivity. Qed.

Lemma lead_mod k c n : (0 < n)%N -> (k mod n = 0)%N -> (c < n)%N -> ((k + c) mod n = c)%N.
Proof.
  intros P K C. rewrite N.add_mod, K, N.add_0_l, N.mod_mod by lia. now apply N.mod_small.
Qed.

Lemma first_encoded c r : (c < 2097152)%N -> first_char (encode c ++ r) = Some c.
Proof.
  intros B. unfold encode.
  destruct (N.ltb_spec c 128).
  { cbn [append first_char]. rewrite byte_value by lia. now destruct (N.ltb_spec c 128); [|lia]. }
  assert (M : forall d, (d mod 64 < 64)%N) by (intros; apply N.mod_lt; lia).
  assert (K : forall d, ((128 + d mod 64) mod 64 = d mod 64)%N) by (intros; apply lead_mod; auto; lia).
  destruct (N.ltb_spec c 2048).
  { pose proof (N.le_0_l (c / 64)) as P. assert (D : (c / 64 < 32)%N) by (apply N.div_lt_upper_bound; lia).
    cbn [append first_char String.get]. rewrite !byte_value by (specialize (M c); lia).
    destruct (N.ltb_spec (192 + c / 64) 128); [lia|]. destruct (N.ltb_spec (192 + c / 64) 224); [|lia].
    rewrite K, lead_mod by (auto; lia). f_equal. pose proof (N.div_mod c 64 ltac:(discriminate)). lia. }
  destruct (N.ltb_spec c 65536).
  { pose proof (N.le_0_l (c / 4096)) as P. assert (D : (c / 4096 < 16)%N) by (apply N.div_lt_upper_bound; lia).
    cbn [append first_char String.get].
    rewrite !byte_value by (pose proof (M c); pose proof (M (c / 64)%N); lia).
    destruct (N.ltb_spec (224 + c / 4096) 128); [lia|]. destruct (N.ltb_spec (224 + c / 4096) 224); [lia|].
    destruct (N.ltb_spec (224 + c / 4096) 240); [|lia].
    rewrite !K, lead_mod by (auto; lia). f_equal.
    pose proof (N.div_mod c 64 ltac:(discriminate)). pose proof (N.div_mod (c / 64) 64 ltac:(discriminate)).
    replace (c / 4096)%N with (c / 64 / 64)%N by (rewrite N.div_div by lia; reflexivity). lia. }
  { pose proof (N.le_0_l (c / 262144)) as P. assert (D : (c / 262144 < 8)%N) by (apply N.div_lt_upper_bound; lia).
    cbn [append first_char String.get].
    rewrite !byte_value by (pose proof (M c); pose proof (M (c / 64)%N); pose proof (M (c / 4096)%N); lia).
    destruct (N.ltb_spec (240 + c / 262144) 128); [lia|]. destruct (N.ltb_spec (240 + c / 262144) 224); [lia|].
    destruct (N.ltb_spec (240 + c / 262144) 240); [lia|].
    rewrite !K, lead_mod by (auto; lia). f_equal.
    pose proof (N.div_mod c 64 ltac:(discriminate)). pose proof (N.div_mod (c / 64) 64 ltac:(discriminate)). pose proof (N.div_mod (c / 64 / 64) 64 ltac:(discriminate)).
    replace (c / 262144)%N with (c / 64 / 64 / 64)%N by (rewrite !N.div_div by lia; reflexivity).
    replace (c / 4096)%N with (c / 64 / 64)%N by (rewrite N.div_div by lia; reflexivity). lia. }
Qed.
Lemma encode_cons c : (c < 2097152)%N -> exists a x, encode c = String a x /\ width a = S (slen x).
Proof.
  intros B. unfold encode.
  destruct (N.ltb_spec c 128).
  { eexists. eexists. split; [reflexivity|]. unfold width. rewrite byte_value by lia.
    now destruct (N.ltb_spec c 128); [|lia]. }
  destruct (N.ltb_spec c 2048).
  { pose proof (N.le_0_l (c / 64)) as P. assert (D : (c / 64 < 32)%N) by (apply N.div_lt_upper_bound; lia).
    eexists. eexists. split; [reflexivity|]. unfold width. rewrite byte_value by lia.
    destruct (N.ltb_spec (192 + c / 64) 128); [lia|]. now destruct (N.ltb_spec (192 + c / 64) 224); [|lia]. }
  destruct (N.ltb_spec c 65536).
  { pose proof (N.le_0_l (c / 4096)) as P. assert (D : (c / 4096 < 16)%N) by (apply N.div_lt_upper_bound; lia).
    eexists. eexists. split; [reflexivity|]. unfold width. rewrite byte_value by lia.
    destruct (N.ltb_spec (224 + c / 4096) 128); [lia|]. destruct (N.ltb_spec (224 + c / 4096) 224); [lia|].
    now destruct (N.ltb_spec (224 + c / 4096) 240); [|lia]. }
  { pose proof (N.le_0_l (c / 262144)) as P. assert (D : (c / 262144 < 8)%N) by (apply N.div_lt_upper_bound; lia).
    eexists. eexists. split; [reflexivity|]. unfold width. rewrite byte_value by lia.
    destruct (N.ltb_spec (240 + c / 262144) 128); [lia|]. destruct (N.ltb_spec (240 + c / 262144) 224); [lia|].
    now destruct (N.ltb_spec (240 + c / 262144) 240); [lia|]. }
Qed.
(** The bytes of a character: itself if it is ASCII, otherwise none is. *)
Fixpoint bytes_ok (P : N -> Prop) (s : string) : Prop :=
  match s with "" => True | String a r => P (N_of_ascii a) /\ bytes_ok P r end.
Lemma encode_bytes c : (c < 2097152)%N ->
  (c < 128)%N /\ encode c = String (byte c) "" \/ (128 <= c)%N /\ bytes_ok (fun n => 128 <= n)%N (encode c).
Proof.
  intros B. unfold encode. assert (M : forall d, (0 <= d mod 64 < 64)%N) by (intros; split; [apply N.le_0_l|apply N.mod_lt; lia]).
  destruct (N.ltb_spec c 128); [left; auto|right; split; [auto|]].
  destruct (N.ltb_spec c 2048).
  { pose proof (N.le_0_l (c / 64)) as P. assert (D : (c / 64 < 32)%N) by (apply N.div_lt_upper_bound; lia). pose proof (M c).
    cbn [bytes_ok]. rewrite !byte_value by lia. repeat split; lia. }
  destruct (N.ltb_spec c 65536).
  { pose proof (N.le_0_l (c / 4096)) as P. assert (D : (c / 4096 < 16)%N) by (apply N.div_lt_upper_bound; lia). pose proof (M c). pose proof (M (c / 64)%N).
    cbn [bytes_ok]. rewrite !byte_value by lia. repeat split; lia. }
  { pose proof (N.le_0_l (c / 262144)) as P. assert (D : (c / 262144 < 8)%N) by (apply N.div_lt_upper_bound; lia).
    pose proof (M c). pose proof (M (c / 64)%N). pose proof (M (c / 4096)%N).
    cbn [bytes_ok]. rewrite !byte_value by lia. repeat split; lia. }
Qed.
Lemma first_bound s c : first_char s = Some c -> (c < 2097152)%N.
Proof.
  destruct s as [|a r]; [discriminate|]. cbn.
  assert (C : forall k, (match String.get k r with None => 0 | Some d => N_of_ascii d mod 64 end < 64)%N).
  { intros k. destruct (String.get k r); [apply N.mod_lt; lia|lia]. }
  pose proof (C 0%nat). pose proof (C 1%nat). pose proof (C 2%nat).
  pose proof (N.mod_lt (N_of_ascii a) 32 ltac:(discriminate)). pose proof (N.mod_lt (N_of_ascii a) 16 ltac:(discriminate)). pose proof (N.mod_lt (N_of_ascii a) 8 ltac:(discriminate)).
  destruct (_ <? 128)%N eqn:L; [apply N.ltb_lt in L; intros E; injection E as <-; lia|].
  destruct (_ <? 224)%N; [intros E; injection E as <-; lia|].
  destruct (_ <? 240)%N; intros E; injection E as <-; lia.
Qed.

(** ** Passing over characters *)
Fixpoint dropped (k : nat) (s : string) : string :=
  match k, s with
  | O, s => s
  | _, "" => ""
  | S k, String _ r => dropped k r
  end.
Lemma skip_dropped esc k : forall s, debug_chars esc k s = debug_chars esc 0 (dropped k s).
Proof. induction k as [|k IH]; intros [|a s]; auto. cbn [dropped debug_chars]. apply IH. Qed.
Lemma substring_dropped k : forall s, s = String.substring 0 k s ++ dropped k s.
Proof. induction k as [|k IH]; intros [|a s]; auto. cbn. now rewrite <- IH. Qed.
Lemma dropped_app x : forall s, dropped (slen x) (x ++ s) = s.
Proof. induction x as [|a x IH]; intros s; [now destruct s|]. cbn. apply IH. Qed.
Lemma dropped_length k : forall s, (slen (dropped k s) <= slen s)%nat.
Proof. induction k as [|k IH]; intros [|a s]; cbn; auto; specialize (IH s); lia. Qed.
Lemma substring_app x : forall s, String.substring 0 (slen x) (x ++ s) = x.
Proof. induction x as [|a x IH]; intros s; cbn; [now destruct s|]. now rewrite IH. Qed.

Lemma debug_encoded esc c r : (c < 2097152)%N ->
  debug_chars esc 0 (encode c ++ r) = debug_char esc c (encode c) ++ debug_chars esc 0 r.
Proof.
  intros B. destruct (encode_cons c B) as (a & x & E & W).
  assert (F := first_encoded c r B). rewrite E in F |- *. cbn [append] in F |- *. cbn [debug_chars]. rewrite F, W.
  assert (SB : String.substring 0 (S (slen x)) (String a (x ++ r)) = encode c).
  { rewrite E. cbn. f_equal. apply substring_app. }
  rewrite SB, String.eqb_refl. rewrite skip_dropped.
  replace (S (slen x) - 1)%nat with (slen x) by lia. now rewrite dropped_app, E.
Qed.
Lemma quoted_char esc c : (c < 2097152)%N -> quoted esc c (debug_char esc c (encode c)).
Proof.
  intros B. unfold debug_char.
  destruct (N.eqb_spec c 0) as [->|N0]; [apply QOwn; cbn; tauto|].
  destruct (N.eqb_spec c 9) as [->|N9]; [apply QOwn; cbn; tauto|].
  destruct (N.eqb_spec c 13) as [->|N13]; [apply QOwn; cbn; tauto|].
  destruct (N.eqb_spec c 10) as [->|N10]; [apply QOwn; cbn; tauto|].
  destruct (N.eqb_spec c 34) as [->|N34]; [apply QOwn; cbn; tauto|].
  destruct (N.eqb_spec c 92) as [->|N92]; [apply QOwn; cbn; tauto|].
  assert (N : ~ In c (map fst own_escapes)) by (cbn; intuition).
  destruct (esc c) eqn:E; [now apply QHex|now apply QItself].
Qed.
Lemma quoted_fun esc c t u : quoted esc c t -> quoted esc c u -> t = u.
Proof.
  assert (IN : forall t, In (c, t) own_escapes -> In c (map fst own_escapes)) by (intros x; apply (in_map fst _ (c, x))).
  intros [x I|N E|N E] [y J|M G|M G]; try congruence; try (exfalso; eauto; fail).
  cbn in I, J. f_equal.
  destruct I as [I|[I|[I|[I|[I|[I|[]]]]]]], J as [J|[J|[J|[J|[J|[J|[]]]]]]];
    injection I as <- <-; first [discriminate J|injection J; auto].
Qed.
Lemma scalar_bound c : scalar c -> (c < 2097152)%N.
Proof. unfold scalar. lia. Qed.
Theorem rust_str_text esc cs : Forall scalar cs ->
  exists ts, Forall2 (quoted esc) cs ts /\ rust_str esc (utf8 cs) = s_quote ++ sconcat ts ++ s_quote.
Proof.
  intros F. assert (X : exists ts, Forall2 (quoted esc) cs ts /\ debug_chars esc 0 (utf8 cs) = sconcat ts).
  { induction F as [|c cs P F (ts & A & B)]; [exists nil; split; [constructor|reflexivity]|].
    apply scalar_bound in P. exists (debug_char esc c (encode c) :: ts). split; [constructor; auto; now apply quoted_char|].
    unfold utf8 in *. cbn [map sconcat]. rewrite debug_encoded by exact P. now rewrite B. }
  destruct X as (ts & A & B). exists ts. split; auto. unfold rust_str. now rewrite B.
Qed.

(** ** Reading back *)
Inductive mode := Plain | Esc | Open | Hex (h : string).
Definition prepend (a : string) (x : option (string * string)) : option (string * string) :=
  match x with Some (s, r) => Some (a ++ s, r) | None => None end.
Fixpoint undo (m : mode) (u : string) : option (string * string) :=
  match u with
  | "" => None
  | String c r =>
    let n := N_of_ascii c in
    match m with
    | Plain =>
      if (n =? 34)%N then Some ("", r) else if (n =? 92)%N then undo Esc r
      else prepend (String c "") (undo Plain r)
    | Esc =>
      if (n =? 48)%N then prepend (String (byte 0) "") (undo Plain r)
      else if (n =? 116)%N then prepend (String (byte 9) "") (undo Plain r)
      else if (n =? 114)%N then prepend (String (byte 13) "") (undo Plain r)
      else if (n =? 110)%N then prepend (String (byte 10) "") (undo Plain r)
      else if (n =? 117)%N then undo Open r
      else prepend (String c "") (undo Plain r)
    | Open => undo (Hex "") r
    | Hex h =>
      if (n =? 125)%N then
        match NilZero.uint_of_string h with
        | Some d => prepend (encode (N.of_hex_uint d)) (undo Plain r)
        | None => None
        end
      else undo (Hex (h ++ String c "")) r
    end
  end.
Lemma undo_raw x : forall u, bytes_ok (fun n => n <> 34 /\ n <> 92)%N x ->
  undo Plain (x ++ u) = prepend x (undo Plain u).
Proof.
  induction x as [|a x IH]; intros u H; cbn [append]; [now destruct (undo Plain u) as [[]|]|].
  destruct H as [[A B] H]. cbn [undo].
  destruct (N.eqb_spec (N_of_ascii a) 34); [congruence|]. destruct (N.eqb_spec (N_of_ascii a) 92); [congruence|].
  rewrite (IH u H). now destruct (undo Plain u) as [[]|].
Qed.
Lemma undo_hex x : forall h u, bytes_ok (fun n => n <> 125)%N x ->
  undo (Hex h) (x ++ "}" ++ u) =
  match NilZero.uint_of_string (h ++ x) with Some d => prepend (encode (N.of_hex_uint d)) (undo Plain u) | None => None end.
Proof.
  induction x as [|a x IH]; intros h u H.
  - cbn. now rewrite append_nil_r.
  - destruct H as [A H]. change (String a x ++ "}" ++ u) with (String a (x ++ "}" ++ u)). cbn [undo]. destruct (N.eqb_spec (N_of_ascii a) 125); [congruence|].
    rewrite IH by exact H. now rewrite <- append_assoc_s.
Qed.
Lemma hex_bytes c : bytes_ok (fun n => n <> 125)%N (NilZero.string_of_uint (N.to_hex_uint c)).
Proof.
  assert (X : forall d, bytes_ok (fun n => n <> 125)%N (NilEmpty.string_of_uint d))
    by (induction d; cbn; auto; split; auto; discriminate).
  unfold NilZero.string_of_uint. destruct (N.to_hex_uint c); try apply X. cbn. split; auto. discriminate.
Qed.
Lemma undo_char esc c u : (c < 2097152)%N ->
  undo Plain (debug_char esc c (encode c) ++ u) = prepend (encode c) (undo Plain u).
Proof.
  intros B. unfold debug_char.
  destruct (N.eqb_spec c 0) as [->|N0]; [reflexivity|].
  destruct (N.eqb_spec c 9) as [->|N9]; [reflexivity|].
  destruct (N.eqb_spec c 13) as [->|N13]; [reflexivity|].
  destruct (N.eqb_spec c 10) as [->|N10]; [reflexivity|].
  destruct (N.eqb_spec c 34) as [->|N34]; [reflexivity|].
  destruct (N.eqb_spec c 92) as [->|N92]; [reflexivity|].
  destruct (esc c) eqn:E.
  - unfold unicode_escape.
    replace ((s_backslash ++ "u{" ++ NilZero.string_of_uint (N.to_hex_uint c) ++ "}") ++ u)
      with (String "\" (String "u" (String "{" (NilZero.string_of_uint (N.to_hex_uint c) ++ "}" ++ u))))
      by (cbn; now rewrite <- append_assoc_s).
    cbn [undo N.eqb N_of_ascii]. change (N_of_ascii "\" =? 34)%N with false. change (N_of_ascii "\" =? 92)%N with true.
    cbn [undo]. change (N_of_ascii "u" =? 48)%N with false. change (N_of_ascii "u" =? 116)%N with false.
    change (N_of_ascii "u" =? 114)%N with false. change (N_of_ascii "u" =? 110)%N with false.
    change (N_of_ascii "u" =? 117)%N with true. cbn [undo].
    rewrite undo_hex by apply hex_bytes. cbn [append].
    assert (NZ : N.to_hex_uint c <> Hexadecimal.Nil).
    { destruct c; [discriminate|apply HexadecimalPos.Unsigned.to_uint_nonnil]. }
    rewrite NilZero.usu by exact NZ. now rewrite Unsigned.of_to.
  - apply undo_raw. destruct (encode_bytes c B) as [[L ->]|[L H]].
    + cbn. rewrite byte_value by lia. auto.
    + revert H. induction (encode c) as [|a x IH]; cbn; auto. intros [A H]. split; [lia|auto].
Qed.
Lemma undo_debug esc : forall n s u, (slen s <= n)%nat ->
  undo Plain (debug_chars esc 0 s ++ s_quote ++ u) = Some (s, u).
Proof.
  induction n as [|n IH]; intros [|a s] u L; cbn in L; try lia; try reflexivity.
  cbn [debug_chars]. destruct (first_char (String a s)) as [c|] eqn:F.
  2:{ exfalso. cbn in F. destruct (_ <? 128)%N; [discriminate|]. destruct (_ <? 224)%N; [discriminate|].
      destruct (_ <? 240)%N; discriminate. }
  assert (B := first_bound _ _ F).
  destruct (String.eqb_spec (String.substring 0 (width a) (String a s)) (encode c)) as [E|N].
  - rewrite E. rewrite <- append_assoc_s. rewrite undo_char by exact B.
    rewrite skip_dropped. rewrite IH by (pose proof (dropped_length (width a - 1) s); lia).
    cbn [prepend]. f_equal. f_equal. rewrite <- E. rewrite (substring_dropped (width a) (String a s)) at 2.
    f_equal. unfold width. destruct (_ <? 128)%N; [reflexivity|]. destruct (_ <? 224)%N; [reflexivity|].
    now destruct (_ <? 240)%N.
  - assert (A : bytes_ok (fun n => n <> 34 /\ n <> 92)%N (String a "")).
    { cbn. split; auto. destruct (N.ltb_spec (N_of_ascii a) 128) as [L'|L'].
      - exfalso. apply N. cbn in F. destruct (N.ltb_spec (N_of_ascii a) 128); [|lia]. injection F as <-.
        unfold width. destruct (N.ltb_spec (N_of_ascii a) 128); [|lia]. unfold encode.
        destruct (N.ltb_spec (N_of_ascii a) 128); [|lia]. rewrite value_byte. cbn. now destruct s.
      - lia. }
    change (String a (debug_chars esc 0 s) ++ s_quote ++ u) with (String a "" ++ (debug_chars esc 0 s ++ s_quote ++ u)).
    rewrite undo_raw by exact A. rewrite IH by lia. reflexivity.
Qed.
Theorem rust_str_quotes esc : quotes (rust_str esc).
Proof.
  split.
  - assert (A : forall s r, undo Plain ((debug_chars esc 0 s ++ s_quote) ++ r) = Some (s, r)).
    { intros s r. rewrite <- append_assoc_s. now apply undo_debug with (n := slen s). }
    intros s t r r' E. assert (X := A s r). assert (Y := A t r'). unfold rust_str in E. cbn [append s_quote] in E.
    injection E as E. fold s_quote in E. rewrite E, Y in X. injection X as <- <-. auto.
  - intros s. eexists. reflexivity.
Qed.
(** Nothing that is written is a control character of its own. *)
Lemma bytes_app P a b : bytes_ok P a -> bytes_ok P b -> bytes_ok P (a ++ b).
Proof. induction a; cbn; tauto. Qed.
Lemma bytes_weaken (P Q : N -> Prop) s : (forall n, P n -> Q n) -> bytes_ok P s -> bytes_ok Q s.
Proof. intros H. induction s; cbn; firstorder. Qed.
Lemma hex_high c : bytes_ok (fun n => 32 <= n)%N (NilZero.string_of_uint (N.to_hex_uint c)).
Proof.
  assert (X : forall d, bytes_ok (fun n => 32 <= n)%N (NilEmpty.string_of_uint d))
    by (induction d; cbn; auto; split; auto; discriminate).
  unfold NilZero.string_of_uint. destruct (N.to_hex_uint c); try apply X. cbn. split; auto. discriminate.
Qed.
Lemma char_one_line esc c : (c < 2097152)%N ->
  bytes_ok (fun n => n <> 10 /\ n <> 13)%N (debug_char esc c (encode c)).
Proof.
  intros B. unfold debug_char.
  destruct (N.eqb_spec c 0) as [->|N0]; [repeat split; discriminate|].
  destruct (N.eqb_spec c 9) as [->|N9]; [repeat split; discriminate|].
  destruct (N.eqb_spec c 13) as [->|N13]; [repeat split; discriminate|].
  destruct (N.eqb_spec c 10) as [->|N10]; [repeat split; discriminate|].
  destruct (N.eqb_spec c 34) as [->|N34]; [repeat split; discriminate|].
  destruct (N.eqb_spec c 92) as [->|N92]; [repeat split; discriminate|].
  destruct (esc c).
  - unfold unicode_escape. repeat apply bytes_app; try (repeat split; discriminate).
    eapply bytes_weaken; [|apply hex_high]. cbn. lia.
  - destruct (encode_bytes c B) as [[L ->]|[L H]].
    + cbn. rewrite byte_value by lia. auto.
    + eapply bytes_weaken; [|exact H]. cbn. lia.
Qed.
Lemma debug_one_line esc : forall n s, (slen s <= n)%nat -> bytes_ok (fun n => n <> 10 /\ n <> 13)%N (debug_chars esc 0 s).
Proof.
  induction n as [|n IH]; intros [|a s] L; cbn in L; try lia; try exact I.
  cbn [debug_chars]. destruct (first_char (String a s)) as [c|] eqn:F; [|exact I].
  assert (B := first_bound _ _ F).
  destruct (String.eqb_spec (String.substring 0 (width a) (String a s)) (encode c)) as [E|N].
  - rewrite E. apply bytes_app; [now apply char_one_line|]. rewrite skip_dropped. apply IH.
    pose proof (dropped_length (width a - 1) s); lia.
  - cbn [bytes_ok]. split; [|apply IH; lia].
    destruct (N.ltb_spec (N_of_ascii a) 128) as [L'|L'].
    + exfalso. apply N. cbn in F. destruct (N.ltb_spec (N_of_ascii a) 128); [|lia]. injection F as <-.
      unfold width. destruct (N.ltb_spec (N_of_ascii a) 128); [|lia]. unfold encode.
      destruct (N.ltb_spec (N_of_ascii a) 128); [|lia]. rewrite value_byte. cbn. now destruct s.
    + lia.
Qed.
Theorem rust_str_one_line esc s : bytes_ok (fun n => n <> 10 /\ n <> 13)%N (rust_str esc s).
Proof. apply bytes_app; [cbn; repeat split; discriminate|]. apply bytes_app; [now apply debug_one_line with (n := slen s)|cbn; repeat split; discriminate]. Qed.
Lemma bytes_lacks s : bytes_ok (fun n => n <> 10 /\ n <> 13)%N s -> lacks [ascii_of_nat 10; ascii_of_nat 13] s = true.
Proof.
  induction s as [|a s IH]; auto. intros [[A B] H]. cbn [lacks existsb]. rewrite (IH H), andb_true_r.
  destruct (Ascii.eqb_spec a (ascii_of_nat 10)) as [->|_]; [now destruct A|].
  destruct (Ascii.eqb_spec a (ascii_of_nat 13)) as [->|_]; [now destruct B|]. reflexivity.
Qed.
