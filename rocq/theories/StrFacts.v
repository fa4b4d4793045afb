(** Lemmas on byte strings, slices and cluster boundaries. *)
From Verif Require Import Base F64 Token Scanner SpecLex.

Lemma sconcat_app (a b : list string) :
  sconcat (a ++ b) = String.append (sconcat a) (sconcat b).
Proof.
  induction a as [|x a IH]; cbn; [reflexivity|].
  rewrite IH. clear. induction x; cbn; congruence.
Qed.

Lemma append_nil_r s : String.append s EmptyString = s.
Proof. induction s; cbn; congruence. Qed.

Lemma append_assoc_s (a b c : string) :
  String.append a (String.append b c) = String.append (String.append a b) c.
Proof. induction a; cbn; congruence. Qed.

Lemma slen_append a b : slen (String.append a b) = slen a + slen b.
Proof. induction a; cbn; auto. Qed.

Lemma slen_sconcat_app a b :
  slen (sconcat (a ++ b)) = slen (sconcat a) + slen (sconcat b).
Proof. now rewrite sconcat_app, slen_append. Qed.

Lemma substring_0_prefix a b : String.substring 0 (slen a) (String.append a b) = a.
Proof. induction a; cbn; [destruct b; reflexivity|congruence]. Qed.

Lemma substring_mid a b c :
  String.substring (slen a) (slen b) (String.append a (String.append b c)) = b.
Proof. induction a; cbn; [apply substring_0_prefix|assumption]. Qed.

Lemma get_after a b i : String.get (slen a + i) (String.append a b) = String.get i b.
Proof. induction a; cbn; [reflexivity|assumption]. Qed.

Lemma boundary_at (a b : list string) :
  Forall starts_char b ->
  is_char_boundary (sconcat (a ++ b)) (slen (sconcat a)) = true.
Proof.
  intros V. unfold is_char_boundary.
  destruct (Nat.eqb_spec (slen (sconcat a)) 0) as [E|E]; [reflexivity|].
  rewrite sconcat_app.
  replace (slen (sconcat a)) with (slen (sconcat a) + 0) at 1 by lia.
  rewrite get_after.
  destruct V as [|g b Hg V].
  - cbn. rewrite slen_append. cbn. rewrite Nat.add_0_r. apply Nat.eqb_refl.
  - destruct g as [|c g]; cbn in *; [contradiction|].
    destruct Hg as [H|H].
    + apply N.ltb_lt in H. now rewrite H.
    + apply N.leb_le in H. rewrite H. apply orb_true_r.
Qed.

(** Slicing between two cluster boundaries. *)
Lemma slice_clusters (a t b : list string) :
  Forall starts_char (t ++ b) ->
  slice (sconcat (a ++ t ++ b)) (slen (sconcat a)) (slen (sconcat (a ++ t)))
  = Some (sconcat t).
Proof.
  intros V. unfold slice.
  assert (Hb : Forall starts_char b) by (eapply Forall_app; exact V).
  rewrite (boundary_at a (t ++ b)) by assumption.
  assert (H2 : is_char_boundary (sconcat (a ++ t ++ b)) (slen (sconcat (a ++ t)))
               = true).
  { rewrite app_assoc. now apply boundary_at. }
  rewrite H2.
  rewrite !slen_sconcat_app.
  replace (slen (sconcat a) <=? slen (sconcat a) + slen (sconcat t)) with true
    by (symmetry; apply Nat.leb_le; lia).
  replace (slen (sconcat a) + slen (sconcat t) <=?
           slen (sconcat a) + (slen (sconcat t) + slen (sconcat b))) with true
    by (symmetry; apply Nat.leb_le; lia).
  cbn [andb]. rewrite !sconcat_app.
  replace (slen (sconcat a) + slen (sconcat t) - slen (sconcat a))
    with (slen (sconcat t)) by lia.
  now rewrite substring_mid.
Qed.

Lemma valid_nonempty g : starts_char g -> g <> EmptyString.
Proof. destruct g; cbn; [tauto|discriminate]. Qed.
