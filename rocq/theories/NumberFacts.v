(** Number tokens carry the rounded value of the decimal they spell. *)
From Coq Require Import ZArith Lia.
From Coq Require Import Floats.SpecFloat.
From Verif Require Import Base F64 Token Scanner SpecLex SpecScan StrFacts ScanProps
  ScanFinal SpecNumber F64Facts.

Lemma length_append a b :
  String.length (String.append a b) = String.length a + String.length b.
Proof. induction a as [|c a IH]; [reflexivity|]. cbn. rewrite IH. reflexivity. Qed.

Lemma digit_val_spec c : (48 <= N_of_ascii c <= 57)%N ->
  digit_val c = Some (N_of_ascii c - 48)%N.
Proof.
  intros [A B]. unfold digit_val. apply N.leb_le in A, B. rewrite A, B. reflexivity.
Qed.

Lemma read_value s rest dot acc frac cnt : digits s ->
  read_decimal (String.append s rest) dot acc frac cnt
  = read_decimal rest dot (acc * 10 ^ N.of_nat (String.length s) + digits_value s)%N
      (if dot then String.length s + frac else frac) (String.length s + cnt).
Proof.
  revert acc frac cnt. induction s as [|c s IH]; intros acc frac cnt D.
  - cbn [String.append String.length digits_value Nat.add]. f_equal; [cbn; lia|].
    destruct dot; reflexivity.
  - cbn [String.append read_decimal].
    rewrite digit_val_spec by (apply D; left; reflexivity).
    rewrite IH by (intros c' I; apply D; right; exact I).
    cbn [String.length digits_value]. f_equal.
    + rewrite Nat2N.inj_succ, N.pow_succ_r'. lia.
    + destruct dot; lia.
    + lia.
Qed.

Lemma parse_whole s : s <> EmptyString -> digits s ->
  parse_f64 s = Some (round_decimal (digits_value s) 0).
Proof.
  intros NE D. unfold parse_f64.
  pose proof (read_value s EmptyString false 0 0 0 D) as E.
  rewrite append_nil_r in E. rewrite E. cbn [read_decimal].
  destruct s as [|c s]; [congruence|]. cbn [String.length Nat.add].
  rewrite N.mul_0_l, N.add_0_l. reflexivity.
Qed.

Lemma parse_point a b : a <> EmptyString -> digits a -> digits b ->
  parse_f64 (String.append a (String "." b))
  = Some (round_decimal (digits_value (String.append a b)) (String.length b)).
Proof.
  intros NE Da Db. unfold parse_f64. rewrite read_value by exact Da.
  cbn [read_decimal]. replace (digit_val ".") with (@None N) by reflexivity.
  cbv iota. replace (Ascii.eqb "." ".") with true by reflexivity.
  pose proof (read_value b EmptyString true
    (0 * 10 ^ N.of_nat (String.length a) + digits_value a)%N 0 (String.length a + 0) Db) as E.
  rewrite append_nil_r in E. rewrite E. cbn [read_decimal].
  destruct a as [|c a]; [congruence|]. cbn [String.length Nat.add].
  rewrite <- plus_n_Sm, Nat.add_0_r.
  assert (V : forall a, digits_value (String.append a b)
    = (digits_value a * 10 ^ N.of_nat (String.length b) + digits_value b)%N).
  { clear. induction a as [|c a IH]; cbn [String.append digits_value String.length]; [lia|].
    rewrite IH, length_append, Nat2N.inj_add, N.pow_add_r. lia. }
  rewrite V, N.mul_0_l, N.add_0_l. reflexivity.
Qed.

Lemma cluster_digits ds : Forall digit_cluster ds -> digits (sconcat ds).
Proof.
  induction 1 as [|g ds Hg H IH]; intros c I; [destruct I|].
  cbn [sconcat] in I.
  assert (exists d, g = String d EmptyString /\ (48 <= N_of_ascii d <= 57)%N) as (d & -> & B).
  { destruct Hg as [<-|[<-|[<-|[<-|[<-|[<-|[<-|[<-|[<-|[<-|[]]]]]]]]]]];
      (eexists; split; [reflexivity|vm_compute; split; discriminate]). }
  destruct I as [<-|I]; [exact B|exact (IH c I)].
Qed.

Section Tokens.
Variable U : unicode.
Hypothesis Sn : sane U.

Lemma number_value gs toks t : valid_source gs -> scan_tokens U gs = Done (Ok toks) ->
  In t toks -> t_type t = Number ->
  exists a b x, a <> EmptyString /\ digits a /\ digits b /\
    (t_lexeme t = a /\ b = EmptyString \/
     t_lexeme t = String.append a (String "." b) /\ b <> EmptyString) /\
    t_float t = Some x /\
    rounded (digits_value (String.append a b)) (String.length b) x.
Proof.
  intros V H I K.
  destruct (numbers U Sn gs toks t V H I K)
    as (before & text & rest & ds & x & SF & _ & F & P & NE & D & _ & C).
  assert (NS : forall l, l <> nil -> Forall digit_cluster l -> sconcat l <> EmptyString).
  { intros [|g l] N Dl; [congruence|]. inversion Dl as [|? ? Hg]; subst. cbn [sconcat].
    destruct Hg as [<-|[<-|[<-|[<-|[<-|[<-|[<-|[<-|[<-|[<-|[]]]]]]]]]]]; discriminate. }
  assert (LX : t_lexeme t = sconcat text) by (destruct SF as [_ SF]; tauto).
  destruct C as [[-> _]|(fs & NF & Df & ->)].
  - exists (sconcat ds), EmptyString, x.
    split; [apply NS; assumption|]. split; [apply cluster_digits, D|].
    split; [intros c []|]. split; [left; split; [exact LX|reflexivity]|].
    split; [exact F|]. rewrite append_nil_r.
    rewrite LX, parse_whole in P by (try apply NS; try apply cluster_digits; assumption).
    injection P as <-. apply round_decimal_correct.
  - rewrite sconcat_app in LX. cbn [sconcat String.append] in LX.
    exists (sconcat ds), (sconcat fs), x.
    split; [apply NS; assumption|]. split; [apply cluster_digits, D|].
    split; [apply cluster_digits, Df|].
    split; [right; split; [exact LX|apply NS; assumption]|].
    split; [exact F|].
    rewrite LX, parse_point in P by (try apply NS; try apply cluster_digits; assumption).
    injection P as <-. apply round_decimal_correct.
Qed.
End Tokens.
