(** The parser on two token lists of the same kinds: it does the same, on related contents. *)
From Verif Require Import Base F64 Token Ast Scanner Parser ParserApi SpecLike Repair.
From Coq Require Import Lia.

Lemma Forall2_length {A B} (Q : A -> B -> Prop) l l' : Forall2 Q l l' -> length l = length l'.
Proof. induction 1; cbn; auto. Qed.
Section Like.
Variable R : leaves.
Variable W : string -> string -> Prop.
Variables t1 t2 : list token.
Variables trailing oc : bool.
Hypothesis TL : Forall2 (token_like R W) t1 t2.
Hypothesis KR : keys_related R t1 t2.
Hypothesis KE : keeps R W.
Notation N := (names_like R).
Notation L := (places_like R).
Notation eE := (expr_like R).
Notation eS := (stmt_like R).

Definition sim_at {A} (Q : A -> A -> Prop) (f g : P A) (s : pstate) : Prop :=
  match f s, g s with
  | POk a u, POk b v => Q a b /\ u = v
  | PErr c u, PErr d v => error_like R W c d /\ u = v
  | PPanic w, PPanic w' => w = w'
  | PFuel, PFuel => True
  | _, _ => False
  end.
Definition sim {A} (Q : A -> A -> Prop) (f g : P A) : Prop := forall s, sim_at Q f g s.
Lemma at_gets {A B} (Q : B -> B -> Prop) (f g : pstate -> A) h k s :
  sim_at Q (h (f s)) (k (g s)) s -> sim_at Q (pbind (gets f) h) (pbind (gets g) k) s.
Proof. exact (fun H => H). Qed.
Lemma sim_ret {A} (Q : A -> A -> Prop) a b : Q a b -> sim Q (pret a) (pret b).
Proof. intros H s. cbn. auto. Qed.
Lemma sim_fail {A} (Q : A -> A -> Prop) c d : error_like R W c d -> sim Q (pfail c) (pfail d).
Proof. intros H s. cbn. auto. Qed.
Lemma sim_panic {A} (Q : A -> A -> Prop) w : sim Q (ppanic w) (ppanic w).
Proof. intros s. cbn. auto. Qed.
Lemma sim_fuel {A} (Q : A -> A -> Prop) : sim Q pfuel pfuel.
Proof. intros s. exact I. Qed.
Lemma sim_bind {A B} (Q : A -> A -> Prop) (Q' : B -> B -> Prop) f g h k :
  sim Q f g -> (forall a b, Q a b -> sim Q' (h a) (k b)) -> sim Q' (pbind f h) (pbind g k).
Proof.
  intros F H s. specialize (F s). unfold sim_at, pbind in *. destruct (f s) as [a u|c u|w|], (g s) as [b v|d v|w'|]; auto; try contradiction.
  destruct F as (Z & ->). exact (H a b Z v).
Qed.
Lemma sim_gets {A} (Q : A -> A -> Prop) f g : (forall s, Q (f s) (g s)) -> sim Q (gets f) (gets g).
Proof. intros H s. cbn. auto. Qed.
Lemma sim_mono {A} (Q Q' : A -> A -> Prop) f g : sim Q f g -> (forall a b, Q a b -> Q' a b) -> sim Q' f g.
Proof.
  intros F H s. specialize (F s). unfold sim_at in *. destruct (f s) as [a u|c u|w|], (g s) as [b v|d v|w'|]; auto. destruct F. auto.
Qed.

Lemma keep_keys a a' b b' : keys_like R a a' -> keys_like R b b' -> (a = b <-> a' = b').
Proof. apply (proj1 KE). Qed.
Lemma keep_this x x' : N x x' -> (x = "this" <-> x' = "this").
Proof. apply (proj1 (proj2 KE)). Qed.
Lemma keep_init x x' : N x x' -> kinds_like R (if String.eqb x "init" then Initializer else Method) (if String.eqb x' "init" then Initializer else Method).
Proof. apply (proj1 (proj2 (proj2 KE))). Qed.
Lemma keep_plain : kinds_like R PlainFunction PlainFunction.
Proof. destruct KE as (_ & _ & _ & H & _). exact H. Qed.
Lemma keep_class : kinds_like R ClassMethod ClassMethod.
Proof. destruct KE as (_ & _ & _ & _ & H & _). exact H. Qed.
Lemma keep_default : L default_loc default_loc.
Proof. destruct KE as (_ & _ & _ & _ & _ & H & _). exact H. Qed.
Lemma keep_equal : W "=" "=".
Proof. destruct KE as (_ & _ & _ & _ & _ & _ & H & _). exact H. Qed.
Lemma keep_name x x' : N x x' -> W x x'.
Proof. destruct KE as (_ & _ & _ & _ & _ & _ & _ & H & _). apply H. Qed.
Lemma keep_key x x' : keys_like R x x' -> W x x'.
Proof. destruct KE as (_ & _ & _ & _ & _ & _ & _ & _ & H). apply H. Qed.

(** ** Looking *)
Lemma nth_like i : option_like (token_like R W) (nth_error t1 i) (nth_error t2 i).
Proof. clear KR. revert i. induction TL as [|t u r q H F IH]; intros [|i]; cbn; try constructor; auto. Qed.
Lemma len_like : length t1 = length t2.
Proof. exact (Forall2_length _ _ _ TL). Qed.
Definition kind_at (t : list token) i : option token_type := option_map t_type (nth_error t i).
Lemma kind_same i : kind_at t1 i = kind_at t2 i.
Proof. unfold kind_at. destruct (nth_like i) as [|a b (H & _)]; cbn; congruence. Qed.
Lemma end_as t s : is_at_end t s = match kind_at t (cur s) with None => true | Some k => tt_eqb k Eof end.
Proof. unfold is_at_end, peek, kind_at. now destruct (nth_error t (cur s)). Qed.
Lemma tok_is_as t i k : tok_is (nth_error t i) k = match kind_at t i with None => false | Some x => tt_eqb x k end.
Proof. unfold kind_at. now destruct (nth_error t i). Qed.
Lemma tok_in_as t i ks : tok_in (nth_error t i) ks = match kind_at t i with None => false | Some x => tt_mem x ks end.
Proof. unfold kind_at. now destruct (nth_error t i). Qed.
Lemma end_same s : is_at_end t1 s = is_at_end t2 s.
Proof. now rewrite !end_as, kind_same. Qed.
Lemma check_same k s : check_st t1 k s = check_st t2 k s.
Proof. unfold check_st, peek. now rewrite end_same, !tok_is_as, kind_same. Qed.
Lemma check_next_same k s : check_next_st t1 k s = check_next_st t2 k s.
Proof. unfold check_next_st, peek_next. now rewrite end_same, !tok_is_as, kind_same. Qed.
Lemma check_next_next_same k s : check_next_next_st t1 k s = check_next_next_st t2 k s.
Proof. unfold check_next_next_st, peek_next_next. now rewrite end_same, !tok_is_as, kind_same. Qed.
Lemma check_any_same k s : check_any_of_st t1 k s = check_any_of_st t2 k s.
Proof. unfold check_any_of_st, peek. now rewrite end_same, !tok_in_as, kind_same. Qed.
Lemma check_next_any_same k s : check_next_any_of_st t1 k s = check_next_any_of_st t2 k s.
Proof. unfold check_next_any_of_st, peek_next. now rewrite end_same, !tok_in_as, kind_same. Qed.
Lemma advance_same s : advance_st t1 s = advance_st t2 s.
Proof. unfold advance_st. now rewrite end_same. Qed.

Lemma sim_advance : sim eq (advance t1) (advance t2).
Proof. intros s. unfold sim_at, advance. rewrite advance_same. auto. Qed.
Lemma sim_check k : sim eq (check t1 k) (check t2 k).
Proof. apply sim_gets. intros. apply check_same. Qed.
Lemma sim_previous : sim (option_like (token_like R W)) (previous t1 oc) (previous t2 oc).
Proof.
  intros s. unfold sim_at, previous. destruct (cur s) as [|n] eqn:E; [destruct oc; cbn; auto; split; [constructor|auto]|].
  split; auto. apply nth_like.
Qed.
Lemma sim_peek : sim (option_like (token_like R W)) (gets (peek t1)) (gets (peek t2)).
Proof. apply sim_gets. intros. apply nth_like. Qed.

(** What was returned, taken apart. *)
Ltac split_rel H :=
  lazymatch type of H with
  | _ = _ => subst
  | option_like _ ?a ?b => let x := fresh in let y := fresh in let G := fresh in destruct H as [|x y G]; [|split_rel G]
  | token_like _ _ ?a ?b => let T := fresh "Ty" in pose proof (proj1 H) as T
  | _ /\ _ => let A := fresh in let B := fresh in destruct H as [A B]; split_rel A; split_rel B
  | _ => idtac
  end.
Ltac sim_leaf := fail.
Ltac sim_side := idtac.
Ltac sim_step :=
  lazymatch goal with
  | |- sim _ pfuel pfuel => apply sim_fuel
  | |- sim _ (pret _) _ => apply sim_ret
  | |- sim _ (pfail _) _ => apply sim_fail
  | |- sim _ (ppanic _) _ => apply sim_panic
  | |- sim _ (advance _) _ => apply sim_advance
  | |- sim _ (check _ _) _ => apply sim_check
  | |- sim _ (previous _ _) _ => apply sim_previous
  | |- sim _ (gets (peek _)) _ => apply sim_peek
  | |- sim _ (gets loops) _ => apply (sim_gets eq); reflexivity
  | |- sim _ (gets _) (gets _) => apply (sim_gets eq); intros;
      rewrite ?check_same, ?end_same, ?check_next_same, ?check_any_same, ?check_next_any_same, ?check_next_next_same; reflexivity
  | |- sim _ (pbind _ _) (pbind _ _) => eapply sim_bind
  | |- forall _, _ => let H := fresh in intros ? ? H; cbv beta in H; split_rel H
  | |- sim _ (if ?b then _ else _) (if ?b then _ else _) => destruct b
  | |- sim _ (match ?x with _ => _ end) (match ?x with _ => _ end) => destruct x
  | |- _ => sim_leaf
  end.
Ltac sims := repeat (sim_step || (progress cbv beta zeta iota)).

Lemma sim_match_token k : sim eq (match_token t1 k) (match_token t2 k).
Proof. unfold match_token. sims; reflexivity. Qed.
Definition found (p q : token_type * source_loc) : Prop := fst p = fst q /\ L (snd p) (snd q).
Lemma sim_matches ks : sim (option_like found) (matches t1 ks) (matches t2 ks).
Proof.
  unfold matches. apply (sim_bind (option_like found)).
  - apply sim_gets. intros s. unfold peek. destruct (nth_like (cur s)) as [|a b (T & P & _)]; [constructor|].
    rewrite <- T. destruct (tt_mem (t_type a) ks); constructor. split; auto.
  - intros a b [|p q F]; sims; constructor; auto.
Qed.
Lemma token_place t u : token_like R W t u -> L (tloc t) (tloc u).
Proof. intros H. apply H. Qed.
Lemma place_like o q : option_like (token_like R W) o q ->
  L (match o with Some t => tloc t | None => default_loc end) (match q with Some t => tloc t | None => default_loc end).
Proof. intros [|a b H]; [apply keep_default|apply H]. Qed.
Lemma sim_previous_loc : sim L (previous_source_loc t1 oc) (previous_source_loc t2 oc).
Proof.
  unfold previous_source_loc. eapply sim_bind; [apply sim_previous|]. intros o q H. apply sim_ret. now apply place_like.
Qed.
Lemma sim_peek_loc : sim L (peek_source_loc t1 oc) (peek_source_loc t2 oc).
Proof.
  unfold peek_source_loc. eapply sim_bind; [apply sim_peek|]. intros o q [|a b H].
  - eapply sim_bind; [apply sim_previous|]. intros o' q' H. apply sim_ret. now apply place_like.
  - apply sim_ret. now apply token_place.
Qed.
Lemma error_of o q l l' m : option_like (token_like R W) o q -> L l l' ->
  error_like R W (match o with Some t => cause_at l (t_lexeme t) m | None => cause_new l m end)
               (match q with Some t => cause_at l' (t_lexeme t) m | None => cause_new l' m end).
Proof. intros [|a b H] P; repeat apply conj; cbn; auto; constructor. apply H. Qed.
Lemma sim_error_last {A} (Q : A -> A -> Prop) m : sim Q (error_from_last t1 oc m) (error_from_last t2 oc m).
Proof.
  unfold error_from_last. eapply sim_bind; [apply sim_previous|]. intros o q H.
  eapply sim_bind; [apply sim_previous_loc|]. intros l l' P. apply sim_fail. now apply error_of.
Qed.
Lemma sim_error_peek {A} (Q : A -> A -> Prop) m : sim Q (error_from_peek t1 oc m) (error_from_peek t2 oc m).
Proof.
  unfold error_from_peek. eapply sim_bind; [apply sim_peek|]. intros o q H.
  eapply sim_bind; [apply sim_peek_loc|]. intros l l' P. apply sim_fail. now apply error_of.
Qed.
Ltac sim_leaf1 :=
  lazymatch goal with
  | |- sim _ (match_token _ _) _ => apply sim_match_token
  | |- sim _ (matches _ _) _ => apply sim_matches
  | |- sim _ (peek_source_loc _ _) _ => apply sim_peek_loc
  | |- sim _ (error_from_last _ _ _) _ => apply sim_error_last
  | |- sim _ (error_from_peek _ _ _) _ => apply sim_error_peek
  end.
Ltac sim_leaf ::= sim_leaf1.
Lemma sim_consume_any ks m : sim eq (consume_any_of t1 oc ks m) (consume_any_of t2 oc ks m).
Proof. unfold consume_any_of. sims; reflexivity. Qed.
Lemma sim_consume k m : sim eq (consume t1 oc k m) (consume t2 oc k m).
Proof. apply sim_consume_any. Qed.
Definition named (p q : string * source_loc) : Prop := N (fst p) (fst q) /\ L (snd p) (snd q).
Lemma sim_identifier m : sim named (consume_identifier t1 oc m) (consume_identifier t2 oc m).
Proof.
  unfold consume_identifier. eapply sim_bind; [apply sim_peek|]. intros o q [|a b H]; [apply sim_error_peek|].
  destruct H as (T & P & X & NM & _). rewrite <- T. destruct (tt_eqb (t_type a) Identifier) eqn:E; [|apply sim_error_peek].
  eapply sim_bind; [apply sim_advance|]. intros _ _ _. apply sim_ret. split; auto. apply NM. left. now apply same_type.
Qed.
Ltac sim_leaf2 :=
  lazymatch goal with
  | |- sim _ (consume_any_of _ _ _ _) _ => apply sim_consume_any
  | |- sim _ (consume _ _ _ _) _ => apply sim_consume
  | |- sim _ (consume_identifier _ _ _) _ => apply sim_identifier
  | |- _ => sim_leaf1
  end.
Ltac sim_leaf ::= sim_leaf2.
Lemma found_parts {A} (Q : A -> A -> Prop) p q (h k : token_type * source_loc -> P A) : found p q ->
  (forall t l l', L l l' -> sim Q (h (t, l)) (k (t, l'))) -> sim Q (h p) (k q).
Proof. destruct p as [t l], q as [t' l']. intros [E P] H. cbn in E, P. subst. auto. Qed.
Lemma sim_begin m : sim eq (consume_begin_block t1 oc m) (consume_begin_block t2 oc m).
Proof.
  unfold consume_begin_block. eapply sim_bind; [apply sim_matches|]. intros o q [|[t l] [t' l'] [T P]]; [apply sim_error_peek|].
  cbn in T. subst t'. destruct t; sims; reflexivity.
Qed.
Lemma sim_end k m : sim eq (consume_end_block t1 oc k m) (consume_end_block t2 oc k m).
Proof. unfold consume_end_block. eapply sim_bind; [apply sim_matches|]. intros o q [|p p' F]; [destruct k; sims|apply sim_ret; reflexivity]. Qed.
Ltac sim_leaf3 :=
  lazymatch goal with
  | |- sim _ (consume_begin_block _ _ _) _ => apply sim_begin
  | |- sim _ (consume_end_block _ _ _ _) _ => apply sim_end
  | |- _ => sim_leaf2
  end.
Ltac sim_leaf ::= sim_leaf3.
Lemma fuel_same : loop_fuel t1 = loop_fuel t2.
Proof. unfold loop_fuel. now rewrite len_like. Qed.
Lemma same_length {A} (Q : A -> A -> Prop) l l' : Forall2 Q l l' -> length l = length l'.
Proof. apply Forall2_length. Qed.
Lemma snoc {A} (Q : A -> A -> Prop) l l' a b : Forall2 Q l l' -> Q a b -> Forall2 Q (l ++ [a]) (l' ++ [b]).
Proof. intros F H. apply Forall2_app; auto. Qed.

Section Knot.
Variables e1 e2 : P expr.
Variables s1 s2 d1 d2 : P stmt.
Hypothesis E : sim eE e1 e2.
Hypothesis Sm : sim eS s1 s2.
Hypothesis D : sim eS d1 d2.

Ltac sim_leaf4 :=
  first [ match goal with
    | H : sim _ ?f _ |- sim _ ?f _ => exact H
    end | sim_leaf3 ].
Ltac sim_leaf ::= sim_leaf4.
Hint Constructors option_like stmt_like expr_like class_like named_like fun_like Forall2 : like.
Hint Resolve snoc : like.

Lemma sim_block n : forall k acc acc', Forall2 eS acc acc' -> sim (Forall2 eS) (block_loop t1 d1 n k acc) (block_loop t2 d2 n k acc').
Proof. induction n as [|n IH]; intros k acc acc' H; cbn [block_loop]; sims; auto. apply IH. auto with like. Qed.
Lemma sim_finish_block k : sim (Forall2 eS) (finish_block t1 oc d1 k) (finish_block t2 oc d2 k).
Proof.
  unfold finish_block. rewrite <- fuel_same. eapply sim_bind; [apply sim_block; constructor|]. intros b b' H. sims. exact H.
Qed.
Lemma sim_param n : forall acc acc', Forall2 (param_like R) acc acc' ->
  sim (Forall2 (param_like R)) (param_loop t1 oc n acc) (param_loop t2 oc n acc').
Proof.
  induction n as [|n IH]; intros acc acc' H; cbn [param_loop]; [apply sim_fuel|].
  eapply sim_bind; [apply sim_identifier|]. intros [x l] [x' l'] [NX LX]. cbn in NX, LX.
  rewrite (same_length _ _ _ H). destruct (255 <=? length acc').
  - apply sim_fail. repeat apply conj; auto. constructor. now apply keep_name.
  - assert (Forall2 (param_like R) (acc ++ [mkParam x l]) (acc' ++ [mkParam x' l'])) as H' by (apply snoc; auto; split; auto).
    sims; auto.
Qed.
Lemma sim_function l l' : L l l' -> sim (fun_like R) (function_definition t1 oc d1 l) (function_definition t2 oc d2 l').
Proof.
  intros P. unfold function_definition. rewrite <- fuel_same. eapply sim_bind; [sims|]. intros _ _ _.
  eapply sim_bind; [sims|]. intros b ? <-. eapply (sim_bind (Forall2 (param_like R))).
  { destruct (negb b); [apply sim_param; constructor|apply sim_ret; constructor]. }
  intros ps ps' HP. eapply sim_bind; [sims|]. intros _ _ _. eapply sim_bind; [sims|]. intros k ? <-.
  eapply sim_bind; [apply sim_finish_block|]. intros b1 b2 HB. apply sim_ret. constructor; auto. apply keep_plain.
Qed.
Definition map_rel : list (string * expr) -> list (string * expr) -> Prop := Forall2 (entry_like R eE).
Lemma insert_like k k' v v' : keys_like R k k' -> eE v v' -> forall m m', map_rel m m' ->
  map_rel (fst (map_insert m k v)) (fst (map_insert m' k' v')) /\
  (snd (map_insert m k v) = None <-> snd (map_insert m' k' v') = None).
Proof.
  intros K V m m' H. induction H as [|[a x] [a' x'] r r' Q F [IH1 IH2]]; cbn.
  - split; [repeat constructor; auto|tauto].
  - inversion Q; subst. assert (X : (a = k <-> a' = k')) by (eapply keep_keys; eauto).
    destruct (String.eqb_spec a k) as [A|A], (String.eqb_spec a' k') as [A'|A'].
    + cbn. split; [constructor; auto; constructor; auto|split; discriminate].
    + exfalso. tauto.
    + exfalso. tauto.
    + destruct (map_insert r k v) as [y o], (map_insert r' k' v') as [y' o']. cbn in *. split; auto. constructor; auto.
Qed.
Lemma entry_facts s : check_any_of_st t1 [Identifier; TString] s && check_next_st t1 Colon s = true ->
  exists c, nth_error t1 (Datatypes.S (cur s)) = Some c /\ t_type c = Colon.
Proof.
  intros H. apply andb_true_iff in H. destruct H as [_ H]. unfold check_next_st, peek_next in H. apply andb_true_iff in H.
  destruct H as [_ H]. replace (cur s + 1) with (Datatypes.S (cur s)) in H by lia. destruct (nth_error t1 _) as [c|]; [|discriminate].
  exists c. split; auto. now apply same_type.
Qed.
Definition key_text (t : token) : P string :=
  match t_type t with
  | Identifier => pret (t_lexeme t)
  | TString => match t_string t with
               | Some v => pret v
               | None => ppanic "primary: expected float literal to include parsed string"
               end
  | _ => ppanic "check() ensures this is unreachable"
  end.
Lemma sim_map n : forall m m', map_rel m m' -> sim map_rel (literal_map_loop t1 oc e1 n m) (literal_map_loop t2 oc e2 n m').
Proof.
  induction n as [|n IH]; intros m m' H; cbn [literal_map_loop].
  - eapply sim_bind; [sims|]. intros b ? <-. destruct b; cbn [negb]; [apply sim_fuel|apply sim_ret; auto].
  - intros s. apply at_gets. rewrite <- check_any_same, <- check_next_same.
    destruct (check_any_of_st t1 [Identifier; TString] s && check_next_st t1 Colon s) eqn:Q; cbn [negb]; [|now apply sim_ret].
    destruct (entry_facts s Q) as (c & CN & CT). apply at_gets. unfold peek. pose proof (KR (cur s)) as KK.
    destruct (nth_like (cur s)) as [|a b HT]; [apply (sim_panic map_rel)|]. specialize (KK a b c).
    pose proof HT as (T & P & X & NM & FL & ST).
    change (sim_at map_rel (plet key <- key_text a ;; pdo advance t1 ;; pdo consume t1 oc Colon "Expect ':' after map key" ;;
      plet value <- e1 ;; let '(m', old) := map_insert m key value in
      match old with
      | Some _ => pfail (cause_at (tloc a) key "Duplicate key in literal map.")
      | None => plet more <- gets (fun s => check_st t1 Comma s || check_st t1 Terminator s &&
          (check_next_any_of_st t1 [Identifier; TString] s && check_next_next_st t1 Colon s || check_next_st t1 RightBrace s)) ;;
        if more then pdo advance t1 ;; literal_map_loop t1 oc e1 n m' else pret m'
      end)
      (plet key <- key_text b ;; pdo advance t2 ;; pdo consume t2 oc Colon "Expect ':' after map key" ;;
      plet value <- e2 ;; let '(m', old) := map_insert m' key value in
      match old with
      | Some _ => pfail (cause_at (tloc b) key "Duplicate key in literal map.")
      | None => plet more <- gets (fun s => check_st t2 Comma s || check_st t2 Terminator s &&
          (check_next_any_of_st t2 [Identifier; TString] s && check_next_next_st t2 Colon s || check_next_st t2 RightBrace s)) ;;
        if more then pdo advance t2 ;; literal_map_loop t2 oc e2 n m' else pret m'
      end) s).
    assert (KT : sim (fun x y => keys_like R x y) (key_text a) (key_text b)).
    { unfold key_text. rewrite <- T. destruct (t_type a) eqn:TA; try apply sim_panic.
      - apply sim_ret. apply KK; auto; [now left|left; split; congruence].
      - destruct (t_string a) eqn:SA, (t_string b) eqn:SB; inversion ST; [|apply sim_panic]. apply sim_ret. apply KK; auto; right; split; congruence. }
    revert s Q CN KK. intros s _ _ _. revert s.
    match goal with |- forall s, sim_at ?q ?f ?g s => change (sim q f g) end.
    eapply sim_bind; [exact KT|]. intros k k' HK. eapply sim_bind; [sims|]. intros _ _ _. eapply sim_bind; [sims|]. intros _ _ _.
    eapply sim_bind; [exact E|]. intros v v' HV. pose proof (insert_like k k' v v' HK HV m m' H) as [I1 I2].
    destruct (map_insert m k v) as [y o], (map_insert m' k' v') as [y' o']. cbn [fst snd] in *.
    destruct o as [o|], o' as [o'|]; try (exfalso; intuition discriminate).
    + apply sim_fail. repeat apply conj; auto. constructor. now apply keep_key.
    + eapply sim_bind; [sims|]. intros z ? <-. destruct z; [|now apply sim_ret].
      eapply sim_bind; [sims|]. intros _ _ _. now apply IH.
Qed.
Lemma sim_literal_map : sim map_rel (literal_map t1 oc e1) (literal_map t2 oc e2).
Proof. unfold literal_map. rewrite <- fuel_same. apply sim_map. constructor. Qed.
Lemma sim_array n : forall acc acc', Forall2 eE acc acc' -> sim (Forall2 eE) (array_loop t1 e1 n acc) (array_loop t2 e2 n acc').
Proof.
  induction n as [|n IH]; intros acc acc' H; cbn [array_loop]; [apply sim_fuel|].
  eapply sim_bind; [exact E|]. intros x x' HX. sims; auto with like.
Qed.
Lemma sim_args n : forall acc acc', Forall2 eE acc acc' -> sim (Forall2 eE) (args_loop t1 oc e1 n acc) (args_loop t2 oc e2 n acc').
Proof.
  induction n as [|n IH]; intros acc acc' H; cbn [args_loop]; [apply sim_fuel|]. rewrite (same_length _ _ _ H).
  destruct (255 <=? length acc'); [apply sim_error_peek|].
  eapply sim_bind; [exact E|]. intros x x' HX. sims; auto with like.
Qed.
Lemma sim_finish_call e e' l l' : eE e e' -> L l l' -> sim eE (finish_call t1 oc e1 e l) (finish_call t2 oc e2 e' l').
Proof.
  intros HE P. unfold finish_call. rewrite <- fuel_same. eapply sim_bind; [sims|]. intros b ? <-. eapply (sim_bind (Forall2 eE)).
  { destruct (negb b); [apply sim_args; constructor|apply sim_ret; constructor]. }
  intros a a' HA. sims. auto with like.
Qed.
Lemma sim_juxtaposed e e' l l' : eE e e' -> L l l' ->
  sim eE (finish_call_without_parens t1 oc e1 e l) (finish_call_without_parens t2 oc e2 e' l').
Proof.
  intros HE P. unfold finish_call_without_parens. rewrite <- fuel_same. eapply sim_bind; [apply sim_args; constructor|].
  intros a a' HA. apply sim_ret. auto with like.
Qed.
Lemma sim_index e e' l l' : eE e e' -> L l l' -> sim eE (finish_get_index t1 oc e1 e l) (finish_get_index t2 oc e2 e' l').
Proof.
  intros HE P. unfold finish_get_index. eapply sim_bind; [exact E|]. intros i i' HI. sims. auto with like.
Qed.
Lemma sim_map_expr : sim eE (plet m <- literal_map t1 oc e1 ;; pret (EMap m)) (plet m <- literal_map t2 oc e2 ;; pret (EMap m)).
Proof. eapply sim_bind; [apply sim_literal_map|]. intros m m' H. apply sim_ret. now constructor. Qed.
Lemma sim_primary : sim eE (primary t1 oc e1 d1) (primary t2 oc e2 d2).
Proof.
  unfold primary. eapply sim_bind; [apply sim_peek|]. intros o q [|a b H]; [apply sim_panic|].
  destruct H as (T & P & X & NM & FL & ST). rewrite <- T. rewrite <- fuel_same. pose proof sim_map_expr as ME.
  destruct (t_type a) eqn:TA;
    try (eapply sim_bind; [apply sim_advance|]; intros _ _ _; apply sim_error_last);
    try (eapply sim_bind; [apply sim_advance|]; intros _ _ _; apply sim_ret; constructor).

  all: try (eapply sim_bind; [sims|]; intros z ? <-; destruct z; [exact ME|]).
  all: try (destruct (t_string a), (t_string b); inversion ST; subst; [|apply sim_panic]).
  all: try (destruct (t_float a), (t_float b); inversion FL; subst; [|apply sim_panic]).
  all: try (eapply sim_bind; [apply sim_advance|]; intros _ _ _; first
    [ apply sim_ret; constructor; auto; fail
    | eapply sim_bind; [exact E|]; intros x x' HX; sims; constructor; auto; fail
    | idtac ]).
  - eapply sim_bind; [apply sim_literal_map|]. intros m m' H. sims. now constructor.
  - eapply sim_bind; [sims|]. intros z ? <-. eapply (sim_bind (Forall2 eE)).
    { destruct (negb z); [apply sim_array; constructor|apply sim_ret; constructor]. }
    intros m m' H. sims. now constructor.
  - eapply sim_bind; [apply sim_match_token|]. intros z ? <-. destruct z; [apply sim_error_last|].
    eapply sim_bind; [apply sim_function; exact P|]. intros f f' H. apply sim_ret. now constructor.
  - eapply sim_bind; [sims|]. intros _ _ _. eapply sim_bind; [apply sim_identifier|]. intros [x l] [x' l'] [HX _].
    apply sim_ret. now constructor.
Qed.
Lemma sim_call_loop n : forall e e', eE e e' -> sim eE (call_loop t1 oc e1 n e) (call_loop t2 oc e2 n e').
Proof.
  induction n as [|n IH]; intros e e' H; cbn [call_loop]; [apply sim_fuel|].
  eapply sim_bind; [apply sim_matches|]. intros o q [|[k l] [k' l'] [K P]].
  - eapply sim_bind; [sims|]. intros z ? <-. destruct z; [|now apply sim_ret].
    eapply sim_bind; [apply sim_peek_loc|]. intros l l' P. eapply sim_bind; [apply sim_juxtaposed; eauto|]. intros x x' HX. now apply IH.
  - cbn in K, P. subst k'. destruct k; try apply sim_panic.
    + eapply sim_bind; [apply sim_finish_call; eauto|]. intros x x' HX. now apply IH.
    + eapply sim_bind; [apply sim_index; eauto|]. intros x x' HX. now apply IH.
    + eapply sim_bind; [apply sim_identifier|]. intros [x m] [x' m'] [HX _]. apply IH. now constructor.
Qed.
Lemma sim_call : sim eE (call t1 oc e1 d1) (call t2 oc e2 d2).
Proof. unfold call. rewrite <- fuel_same. eapply sim_bind; [apply sim_primary|]. intros e e' H. now apply sim_call_loop. Qed.
Lemma sim_unary_fuel n : sim eE (unary_fuel t1 oc e1 d1 n) (unary_fuel t2 oc e2 d2 n).
Proof.
  induction n as [|n IH]; cbn [unary_fuel]; [apply sim_fuel|].
  eapply sim_bind; [apply sim_matches|]. intros o q [|[k l] [k' l'] [K P]]; [apply sim_call|]. cbn in K, P. subst k'.
  eapply sim_bind; [exact IH|]. intros r r' HR. destruct k; try apply sim_panic; apply sim_ret; now constructor.
Qed.
Lemma sim_unary : sim eE (unary t1 oc e1 d1) (unary t2 oc e2 d2).
Proof. unfold unary. rewrite <- fuel_same. apply sim_unary_fuel. Qed.
Lemma sim_multiplication_loop n : forall e e', eE e e' -> sim eE (multiplication_loop t1 oc e1 d1 n e) (multiplication_loop t2 oc e2 d2 n e').
Proof.
  induction n as [|n IH]; intros e e' H; cbn [multiplication_loop]; [apply sim_fuel|].
  eapply sim_bind; [apply sim_matches|]. intros o q [|[k l] [k' l'] [K P]]; [now apply sim_ret|]. cbn in K, P. subst k'.
  eapply sim_bind; [apply sim_unary|]. intros r r' HR. eapply (sim_bind eq); [destruct k; first [apply sim_panic|now apply sim_ret]|].
  intros op ? <-. apply IH. auto with like.
Qed.
Lemma sim_multiplication : sim eE (multiplication t1 oc e1 d1) (multiplication t2 oc e2 d2).
Proof. unfold multiplication. rewrite <- fuel_same. eapply sim_bind; [apply sim_unary|]. intros e e' H. now apply sim_multiplication_loop. Qed.
Lemma sim_addition_loop n : forall e e', eE e e' -> sim eE (addition_loop t1 oc e1 d1 n e) (addition_loop t2 oc e2 d2 n e').
Proof.
  induction n as [|n IH]; intros e e' H; cbn [addition_loop]; [apply sim_fuel|].
  eapply sim_bind; [apply sim_matches|]. intros o q [|[k l] [k' l'] [K P]]; [now apply sim_ret|]. cbn in K, P. subst k'.
  eapply sim_bind; [apply sim_multiplication|]. intros r r' HR. eapply (sim_bind eq); [destruct k; first [apply sim_panic|now apply sim_ret]|].
  intros op ? <-. apply IH. auto with like.
Qed.
Lemma sim_addition : sim eE (addition t1 oc e1 d1) (addition t2 oc e2 d2).
Proof. unfold addition. rewrite <- fuel_same. eapply sim_bind; [apply sim_multiplication|]. intros e e' H. now apply sim_addition_loop. Qed.
Lemma sim_comparison_loop n : forall e e', eE e e' -> sim eE (comparison_loop t1 oc e1 d1 n e) (comparison_loop t2 oc e2 d2 n e').
Proof.
  induction n as [|n IH]; intros e e' H; cbn [comparison_loop]; [apply sim_fuel|].
  eapply sim_bind; [apply sim_matches|]. intros o q [|[k l] [k' l'] [K P]]; [now apply sim_ret|]. cbn in K, P. subst k'.
  eapply sim_bind; [apply sim_addition|]. intros r r' HR. eapply (sim_bind eq); [destruct k; first [apply sim_panic|now apply sim_ret]|].
  intros op ? <-. apply IH. auto with like.
Qed.
Lemma sim_comparison : sim eE (comparison t1 oc e1 d1) (comparison t2 oc e2 d2).
Proof. unfold comparison. rewrite <- fuel_same. eapply sim_bind; [apply sim_addition|]. intros e e' H. now apply sim_comparison_loop. Qed.
Lemma sim_equality_loop n : forall e e', eE e e' -> sim eE (equality_loop t1 oc e1 d1 n e) (equality_loop t2 oc e2 d2 n e').
Proof.
  induction n as [|n IH]; intros e e' H; cbn [equality_loop]; [apply sim_fuel|].
  eapply sim_bind; [apply sim_matches|]. intros o q [|[k l] [k' l'] [K P]]; [now apply sim_ret|]. cbn in K, P. subst k'.
  eapply sim_bind; [apply sim_comparison|]. intros r r' HR. eapply (sim_bind eq); [destruct k; first [apply sim_panic|now apply sim_ret]|].
  intros op ? <-. apply IH. auto with like.
Qed.
Lemma sim_equality : sim eE (equality t1 oc e1 d1) (equality t2 oc e2 d2).
Proof. unfold equality. rewrite <- fuel_same. eapply sim_bind; [apply sim_comparison|]. intros e e' H. now apply sim_equality_loop. Qed.
Lemma sim_and_loop n : forall e e', eE e e' -> sim eE (and_loop t1 oc e1 d1 n e) (and_loop t2 oc e2 d2 n e').
Proof.
  induction n as [|n IH]; intros e e' H; cbn [and_loop]; [apply sim_fuel|].
  eapply sim_bind; [apply sim_match_token|]. intros b ? <-. destruct b; [|now apply sim_ret].
  eapply sim_bind; [apply sim_equality|]. intros r r' HR. apply IH. auto with like.
Qed.
Lemma sim_and : sim eE (and_ t1 oc e1 d1) (and_ t2 oc e2 d2).
Proof. unfold and_. rewrite <- fuel_same. eapply sim_bind; [apply sim_equality|]. intros e e' H. now apply sim_and_loop. Qed.
Lemma sim_or_loop n : forall e e', eE e e' -> sim eE (or_loop t1 oc e1 d1 n e) (or_loop t2 oc e2 d2 n e').
Proof.
  induction n as [|n IH]; intros e e' H; cbn [or_loop]; [apply sim_fuel|].
  eapply sim_bind; [apply sim_match_token|]. intros b ? <-. destruct b; [|now apply sim_ret].
  eapply sim_bind; [apply sim_and|]. intros r r' HR. apply IH. auto with like.
Qed.
Lemma sim_or : sim eE (or_ t1 oc e1 d1) (or_ t2 oc e2 d2).
Proof. unfold or_. rewrite <- fuel_same. eapply sim_bind; [apply sim_and|]. intros e e' H. now apply sim_or_loop. Qed.
Lemma sim_target e e' r r' l l' : eE e e' -> eE r r' -> L l l' -> sim eE (assign_target e r l) (assign_target e' r' l').
Proof.
  intros H HR P. assert (X : error_like R W (cause_at l "=" "Invalid assignment target.") (cause_at l' "=" "Invalid assignment target.")).
  { repeat apply conj; auto. constructor. apply keep_equal. }
  destruct H; cbn [assign_target]; try (apply sim_fail; exact X); try (apply sim_ret; constructor; auto).
  pose proof (keep_this _ _ H) as Z. destruct (String.eqb_spec x "this") as [A|A], (String.eqb_spec x' "this") as [A'|A'];
    try (exfalso; tauto); [apply sim_fail; exact X|apply sim_ret; constructor; auto].
Qed.
Lemma sim_expression : sim eE (expression t1 oc e1 d1) (expression t2 oc e2 d2).
Proof.
  unfold expression, assignment. eapply sim_bind; [apply sim_match_token|]. intros z ? <-. eapply (sim_bind eE).
  { destruct z; [|apply sim_or]. eapply sim_bind; [apply sim_or|]. intros e e' H. sims. exact H. }
  intros e e' H. eapply sim_bind; [apply sim_matches|]. intros o q [|[k l] [k' l'] [K P]]; [now apply sim_ret|].
  eapply sim_bind; [exact E|]. intros r r' HR. now apply sim_target.
Qed.
Ltac sim_leaf5 :=
  lazymatch goal with
  | |- sim _ (expression _ _ _ _) _ => apply sim_expression
  | |- sim _ (finish_block _ _ _ _) _ => apply sim_finish_block
  | |- _ => sim_leaf4
  end.
Ltac sim_leaf ::= sim_leaf5.
Lemma sim_expression_statement : sim eS (expression_statement t1 trailing oc e1 d1) (expression_statement t2 trailing oc e2 d2).
Proof.
  unfold expression_statement. eapply sim_bind; [apply sim_expression|]. intros e e' H. eapply sim_bind; [sims|]. intros b ? <-.
  eapply (sim_bind eq); [destruct b; sims; reflexivity|]. intros _ _ _. apply sim_ret. now constructor.
Qed.
Definition value_like (p q : expr * bool) : Prop := eE (fst p) (fst q) /\ snd p = snd q.
Lemma sim_finish_var b : sim eS (finish_var_declaration t1 oc e1 d1 b) (finish_var_declaration t2 oc e2 d2 b).
Proof.
  unfold finish_var_declaration. eapply sim_bind; [apply sim_identifier|]. intros [x l] [x' l'] [HX P]. cbn in HX, P.
  eapply sim_bind; [apply sim_matches|]. intros o q HO. eapply (sim_bind value_like).
  { destruct HO as [|p p' _]; [apply sim_ret; split; auto; constructor|].
    eapply sim_bind; [sims|]. intros _ _ _. eapply sim_bind; [sims|]. intros z ? <-.
    eapply sim_bind; [apply sim_expression|]. intros e e' H. apply sim_ret. now split. }
  intros [e n] [e' n'] [H NN]. cbn in H, NN. subst n'.
  eapply (sim_bind eq); [destruct b; [|destruct n]; sims; reflexivity|]. intros _ _ _. apply sim_ret. now constructor.
Qed.
Lemma sim_finish_fun : sim (fun f f' => named_like R f f' /\ forall k k', kinds_like R k k' -> named_like R (set_fun_type k f) (set_fun_type k' f'))
  (finish_fun_declaration t1 oc d1) (finish_fun_declaration t2 oc d2).
Proof.
  unfold finish_fun_declaration. eapply sim_bind; [apply sim_identifier|]. intros [x l] [x' l'] [HX P].
  eapply sim_bind; [apply sim_function; exact P|]. intros f f' H. apply sim_ret. cbn in HX. split; [now constructor|].
  intros k k' K. destruct H. cbn. constructor; auto. now constructor.
Qed.
Lemma sim_methods n : forall k acc acc', Forall2 (named_like R) acc acc' ->
  sim (Forall2 (named_like R)) (method_loop t1 oc d1 n k acc) (method_loop t2 oc d2 n k acc').
Proof.
  induction n as [|n IH]; intros k acc acc' H; cbn [method_loop].
  - eapply sim_bind; [sims|]. intros z ? <-. destruct z; [now apply sim_ret|apply sim_fuel].
  - eapply sim_bind; [sims|]. intros z ? <-. destruct z; [now apply sim_ret|].
    eapply sim_bind; [sims|]. intros c ? <-. eapply sim_bind; [apply sim_finish_fun|]. intros f f' [HF HK].
    cbv zeta. apply IH. apply snoc; auto. apply HK. destruct c; [apply keep_class|].
    destruct HF as [x x' g g' HX _]. cbn [fun_name]. now apply keep_init.
Qed.
Lemma sim_finish_class : sim eS (finish_class_declaration t1 oc d1) (finish_class_declaration t2 oc d2).
Proof.
  unfold finish_class_declaration. rewrite <- fuel_same. eapply sim_bind; [apply sim_identifier|]. intros [x l] [x' l'] [HX P].
  cbn in HX, P. eapply sim_bind; [sims|]. intros z ? <-. eapply (sim_bind (option_like eE)).
  { destruct z; [|apply sim_ret; constructor]. eapply sim_bind; [apply sim_identifier|]. intros [y m] [y' m'] [HY Q].
    apply sim_ret. constructor. now constructor. }
  intros p p' HP. eapply sim_bind; [sims|]. intros k ? <-. eapply sim_bind; [apply sim_methods; constructor|]. intros ms ms' HM.
  eapply sim_bind; [sims|]. intros _ _ _. apply sim_ret. constructor. now constructor.
Qed.
Lemma sim_break l l' : L l l' -> sim eS (finish_break_statement t1 oc l) (finish_break_statement t2 oc l').
Proof. intros P. unfold finish_break_statement. sims. now constructor. Qed.
Lemma sim_continue l l' : L l l' -> sim eS (finish_continue_statement t1 oc l) (finish_continue_statement t2 oc l').
Proof. intros P. unfold finish_continue_statement. sims. now constructor. Qed.
Definition body_as (t : list token) (d st : P stmt) : P stmt :=
  pdo incr_loops ;;
  plet b <- gets (fun s => check_st t Terminator s || check_st t LeftBrace s) ;;
  if (b : bool) then
    plet k <- consume_begin_block t oc "Expect '{' or indent before loop body." ;;
    counted (plet b <- finish_block t oc d k ;; pret (SBlock b))
  else counted st.
Lemma body_is t d st s : loop_body_statement t oc st d s = body_as t d st s.
Proof.
  unfold loop_body_statement, body_as, pbind, incr_loops, gets, pret, counted.
  destruct (check_st t Terminator _ || check_st t LeftBrace _); [|reflexivity].
  destruct (consume_begin_block t oc _ _); reflexivity.
Qed.
Lemma sim_counted f g : sim eS f g -> sim eS (counted f) (counted g).
Proof.
  intros H s. specialize (H s). unfold sim_at, counted in *.
  destruct (f s) as [a r|c r|w|], (g s) as [a' r'|c' r'|w'|]; auto; try contradiction.
  - destruct H as (H & ->). unfold decr_loops_st. destruct (loops r'); cbn; auto.
  - destruct H as (H & ->). unfold decr_loops_st. destruct (loops r'); cbn; auto.
Qed.
Lemma sim_blocked k : sim eS (plet b <- finish_block t1 oc d1 k ;; pret (SBlock b)) (plet b <- finish_block t2 oc d2 k ;; pret (SBlock b)).
Proof. eapply sim_bind; [apply sim_finish_block|]. intros b b' H. apply sim_ret. now constructor. Qed.
Lemma sim_body : sim eS (loop_body_statement t1 oc s1 d1) (loop_body_statement t2 oc s2 d2).
Proof.
  intros s. unfold sim_at. rewrite !body_is. revert s. change (sim eS (body_as t1 d1 s1) (body_as t2 d2 s2)). unfold body_as.
  eapply (sim_bind eq); [intros s; cbn; auto|]. intros _ _ _. eapply sim_bind; [sims|]. intros z ? <-. destruct z; [|now apply sim_counted].
  eapply sim_bind; [sims|]. intros k ? <-. apply sim_counted. apply sim_blocked.
Qed.
Lemma sim_for : sim eS (finish_for_statement t1 trailing oc e1 s1 d1) (finish_for_statement t2 trailing oc e2 s2 d2).
Proof.
  unfold finish_for_statement. eapply sim_bind; [sims|]. intros _ _ _. eapply sim_bind; [sims|]. intros z ? <-.
  eapply (sim_bind (option_like eS)).
  { destruct z; [apply sim_ret; constructor|]. eapply sim_bind; [sims|]. intros v ? <-. destruct v.
    - eapply sim_bind; [apply sim_finish_var|]. intros d d' H. apply sim_ret. now constructor.
    - eapply sim_bind; [apply sim_expression_statement|]. intros d d' H. apply sim_ret. now constructor. }
  intros i i' HI. eapply sim_bind; [sims|]. intros z1 ? <-. eapply (sim_bind eE).
  { destruct z1; [apply sim_ret; constructor|apply sim_expression]. }
  intros c c' HC. eapply sim_bind; [sims|]. intros _ _ _. eapply sim_bind; [sims|]. intros z2 ? <-. eapply (sim_bind (option_like eE)).
  { destruct z2; [apply sim_ret; constructor|]. eapply sim_bind; [apply sim_expression|]. intros d d' H. apply sim_ret. now constructor. }
  intros u u' HU. eapply sim_bind; [sims|]. intros _ _ _. eapply sim_bind; [apply sim_body|]. intros b b' HB. cbv zeta.
  assert (HW : eS (match u with None => SWhile c b | Some inc => SWhileIncrement c b inc end)
                  (match u' with None => SWhile c' b' | Some inc => SWhileIncrement c' b' inc end)).
  { destruct HU; now constructor. }
  destruct HI as [|d d' HD]; apply sim_ret; auto. constructor. repeat constructor; auto.
Qed.
Lemma sim_finish_if : sim eS (finish_if_statement t1 oc e1 s1 d1) (finish_if_statement t2 oc e2 s2 d2).
Proof.
  unfold finish_if_statement. eapply sim_bind; [sims|]. intros _ _ _. eapply sim_bind; [apply sim_expression|]. intros c c' HC.
  eapply sim_bind; [sims|]. intros _ _ _. eapply sim_bind; [sims|]. intros z ? <-. eapply (sim_bind eS).
  { destruct z; [|exact Sm]. eapply sim_bind; [sims|]. intros k ? <-. apply sim_blocked. }
  intros b b' HB. eapply sim_bind; [sims|]. intros z1 ? <-. eapply (sim_bind (option_like eS)).
  { destruct z1; [|apply sim_ret; constructor]. eapply sim_bind; [exact Sm|]. intros e e' H. apply sim_ret. now constructor. }
  intros e e' H. apply sim_ret. now constructor.
Qed.
Lemma sim_print : sim eS (finish_print_statement t1 oc e1 d1) (finish_print_statement t2 oc e2 d2).
Proof. unfold finish_print_statement. eapply sim_bind; [apply sim_expression|]. intros c c' HC. sims. now constructor. Qed.
Lemma sim_return l l' : L l l' -> sim eS (finish_return_statement t1 oc e1 d1 l) (finish_return_statement t2 oc e2 d2 l').
Proof.
  intros P. unfold finish_return_statement. eapply sim_bind; [sims|]. intros z ? <-. eapply (sim_bind eE).
  { destruct z; [apply sim_ret; constructor|apply sim_expression]. }
  intros c c' HC. sims. now constructor.
Qed.
Lemma sim_while : sim eS (finish_while_statement t1 oc e1 s1 d1) (finish_while_statement t2 oc e2 s2 d2).
Proof.
  unfold finish_while_statement. eapply sim_bind; [sims|]. intros _ _ _. eapply sim_bind; [apply sim_expression|]. intros c c' HC.
  eapply sim_bind; [sims|]. intros _ _ _. eapply sim_bind; [apply sim_body|]. intros b b' HB. apply sim_ret. now constructor.
Qed.
Lemma sim_statement : sim eS (statement t1 trailing oc e1 s1 d1) (statement t2 trailing oc e2 s2 d2).
Proof.
  unfold statement. eapply sim_bind; [apply sim_matches|]. intros o q [|[k l] [k' l'] [K P]]; [apply sim_expression_statement|].
  cbn in K, P. subst k'. destruct k; try apply sim_panic;
  auto using sim_break, sim_continue, sim_for, sim_finish_if, sim_blocked, sim_print, sim_return, sim_while.
Qed.
Lemma sim_declaration : sim eS (declaration t1 trailing oc e1 s1 d1) (declaration t2 trailing oc e2 s2 d2).
Proof.
  unfold declaration. eapply sim_bind; [sims|]. intros z ? <-. destruct z; [apply sim_finish_class|].
  eapply sim_bind; [sims|]. intros z ? <-. destruct z.
  - eapply sim_bind; [sims|]. intros _ _ _. eapply sim_bind; [apply sim_finish_fun|]. intros f f' [H _]. apply sim_ret. now constructor.
  - eapply sim_bind; [sims|]. intros z ? <-. destruct z; [apply sim_finish_var|apply sim_statement].
Qed.
End Knot.

Lemma sim_level n : sim eE (k_expr (level t1 trailing oc n)) (k_expr (level t2 trailing oc n)) /\
  sim eS (k_stmt (level t1 trailing oc n)) (k_stmt (level t2 trailing oc n)) /\
  sim eS (k_decl (level t1 trailing oc n)) (k_decl (level t2 trailing oc n)).
Proof.
  induction n as [|n (E & St & D)]; [repeat apply conj; apply sim_fuel|]. cbn [level k_expr k_stmt k_decl].
  repeat apply conj; [now apply sim_expression|now apply sim_statement|now apply sim_declaration].
Qed.
Lemma nesting_same : nesting_fuel t1 = nesting_fuel t2.
Proof. unfold nesting_fuel. now rewrite len_like. Qed.
Lemma sim_sync_loop n : sim eq (synchronize_loop t1 oc n) (synchronize_loop t2 oc n).
Proof.
  induction n as [|n IH]; intros s; unfold sim_at; cbn [synchronize_loop]; rewrite <- end_same; destruct (is_at_end t1 s); auto.
  revert s. match goal with |- forall s, match ?f s with _ => _ end => idtac end.
  match goal with |- forall s, match ?f s with POk _ _ => match ?g s with _ => _ end | _ => _ end => change (sim eq f g) end.
  eapply sim_bind; [apply sim_previous|]. intros o q HO.
  assert (match o with Some t => is_sync_type (t_type t) | None => false end = match q with Some t => is_sync_type (t_type t) | None => false end) as <-.
  { destruct HO as [|a b (T & _)]; auto. now rewrite T. }
  cbv zeta. destruct (match o with Some t => is_sync_type (t_type t) | None => false end); [now apply sim_ret|].
  eapply sim_bind; [apply sim_advance|]. intros _ _ _. exact IH.
Qed.
Lemma sim_synchronize : sim eq (synchronize t1 oc) (synchronize t2 oc).
Proof. unfold synchronize. rewrite <- len_like. eapply sim_bind; [apply sim_advance|]. intros _ _ _. apply sim_sync_loop. Qed.

Definition loop_like (x y : outcome (list stmt * list cause * pstate)) : Prop :=
  match x, y with
  | Done (a, c, u), Done (b, d, v) => Forall2 eS a b /\ Forall2 (error_like R W) c d /\ u = v
  | Panicked w, Panicked w' => w = w'
  | Diverged, Diverged | OutOfFuel, OutOfFuel => True
  | _, _ => False
  end.
Lemma sim_loop n : forall sts sts' errs errs' s, Forall2 eS sts sts' -> Forall2 (error_like R W) errs errs' ->
  loop_like (parse_loop t1 trailing oc n sts errs s) (parse_loop t2 trailing oc n sts' errs' s).
Proof.
  induction n as [|n IH]; intros sts sts' errs errs' s HS HE; cbn [parse_loop]; rewrite <- end_same; destruct (is_at_end t1 s); cbn [loop_like]; auto.
  rewrite <- nesting_same. destruct (sim_level (nesting_fuel t1)) as (_ & _ & D). specialize (D s). unfold sim_at in D.
  destruct (k_decl (level t1 trailing oc (nesting_fuel t1)) s) as [d u|c u|w|], (k_decl (level t2 trailing oc (nesting_fuel t1)) s) as [d' u'|c' u'|w'|]; auto; try contradiction.
  - destruct D as (HD & ->). apply IH; auto. now apply snoc.
  - destruct D as (HD & ->). pose proof (sim_synchronize u') as Y. unfold sim_at in Y.
    destruct (synchronize t1 oc u') as [x v|x v|w|], (synchronize t2 oc u') as [x' v'|x' v'|w'|]; auto; try contradiction.
    + destruct Y as (_ & ->). apply IH; auto. now apply snoc.
    + exact eq_refl.
Qed.
(** ** The entry points *)
Lemma parse_like : results_like R W (Forall2 eS) (parse_tokens t1 trailing oc) (parse_tokens t2 trailing oc).
Proof.
  unfold parse_tokens. rewrite <- fuel_same.
  pose proof (sim_loop (loop_fuel t1) nil nil nil nil (mkP 0 0) (Forall2_nil _) (Forall2_nil _)) as H.
  destruct (parse_loop t1 trailing oc (loop_fuel t1) nil nil (mkP 0 0)) as [[[a c] u]| | |],
    (parse_loop t2 trailing oc (loop_fuel t1) nil nil (mkP 0 0)) as [[[b d] v]| | |]; cbn in *; auto; try contradiction.
  destruct H as (HA & HC & <-). pose proof (sim_consume Eof "Expected end of file" u) as Y. unfold sim_at in Y.
  destruct (consume t1 oc Eof _ u) as [x r|x r|w|], (consume t2 oc Eof _ u) as [x' r'|x' r'|w'|]; auto; try contradiction.
  - destruct HC; cbn; auto.
  - destruct Y as (Y & _). cbn. now apply snoc.
Qed.
Lemma parse_expression_like : results_like R W eE (parse_expression_tokens t1 trailing oc) (parse_expression_tokens t2 trailing oc).
Proof.
  unfold parse_expression_tokens. rewrite <- nesting_same. destruct (sim_level (nesting_fuel t1)) as (HE & _ & _).
  assert (H : sim eE (plet e <- k_expr (level t1 trailing oc (nesting_fuel t1)) ;; pdo consume t1 oc Eof "Expected end of file" ;; pret e)
    (plet e <- k_expr (level t2 trailing oc (nesting_fuel t1)) ;; pdo consume t2 oc Eof "Expected end of file" ;; pret e)).
  { eapply sim_bind; [exact HE|]. intros e e' X. eapply sim_bind; [apply sim_consume|]. intros _ _ _. now apply sim_ret. }
  specialize (H (mkP 0 0)). unfold sim_at in H.
  match goal with |- results_like R W _ (match ?x with _ => _ end) (match ?y with _ => _ end) => destruct x, y end; cbn; auto; try contradiction.
  - apply H.
  - constructor; [apply H|constructor].
Qed.
End Like.
