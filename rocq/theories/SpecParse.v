(** Specification vocabulary for the single properties of parsing. *)
From Verif Require Import Base F64 Token Ast SpecGrammar.

(** What the scanner guarantees about its tokens: one Eof, at the end; numbers
    and strings carry their values. *)
Record tokens_ok (toks : list token) : Prop := mkTokensOk {
  tk_end : exists body eof, toks = body ++ [eof] /\ t_type eof = Eof /\
             Forall (fun t => t_type t <> Eof) body;
  tk_number : Forall (fun t => t_type t = Number -> t_float t <> None) toks;
  tk_string : Forall (fun t => t_type t = TString -> t_string t <> None) toks
}.

(** ** Errors *)
(** [c] is an error at token [t]: it has the token's location and text.  (Errors
    about map keys have the key, which for strings is the text without quotes.) *)
Definition cause_names (t : token) (c : cause) : Prop :=
  c_loc c = tloc t /\
  (c_token c = Some (t_lexeme t) \/
   (t_type t = Equal /\ c_token c = Some "=") \/
   (exists k, key_of t k /\ c_token c = Some k)).
(** The causes name tokens of [toks] from index [lo] on, in strictly
    increasing order. *)
Inductive errors_at (toks : list token) : nat -> list cause -> Prop :=
| ea_nil : forall lo, errors_at toks lo nil
| ea_cons : forall lo j t c cs, lo <= j -> nth_error toks j = Some t -> cause_names t c ->
    errors_at toks (S j) cs -> errors_at toks lo (c :: cs).

(** ** Statement positions *)
(** After some declarations (inside a loop, or not) the tokens [r] are left
    of [i]: the next declaration starts there. *)
Inductive declarations (trailing b : bool) : list token -> list token -> Prop :=
| ds_none : forall i, declarations trailing b i i
| ds_more : forall i st r1 r, derives trailing b Declaration i (VS st) r1 ->
    declarations trailing b r1 r -> declarations trailing b i r.

(** ** Assignments *)
(** What can be assigned to: names but [this], properties and elements. *)
Definition assignable (e : expr) : Prop :=
  match e with
  | EVariable x _ _ => x <> "this"
  | EGet _ _ _ | EGetIndex _ _ _ => True
  | _ => False
  end.

(** ** For loops *)
(** The tree of a for loop with these parts. *)
Inductive desugared : option stmt -> option expr -> option expr -> stmt -> stmt -> Prop :=
| ds_plain : forall cond b, desugared None (Some cond) None b (SWhile cond b)
| ds_plain_always : forall b, desugared None None None b (SWhile (EBool true) b)
| ds_step : forall cond i b, desugared None (Some cond) (Some i) b (SWhileIncrement cond b i)
| ds_step_always : forall i b, desugared None None (Some i) b (SWhileIncrement (EBool true) b i)
| ds_block : forall d cond i b st, desugared None cond i b st -> desugared (Some d) cond i b (SBlock [d; st]).

(** ** Maps *)
(** The entries [m] stand in [i] in this order, each key followed by a colon
    and its value. *)
Fixpoint in_order (trailing b : bool) (i : list token) (m : list (string * expr)) : Prop :=
  match m with
  | nil => True
  | (k, e) :: m' =>
    exists p t c j r, i = p ++ t :: c :: j /\ key_of t k /\ t_type c = Colon /\
      derives trailing b Expression j (VE e) r /\ in_order trailing b r m'
  end.

(** ** Classes *)
(** The members [ms] stand in [i] in this order; those with [class] in front
    are class methods, others named [init] initializers. *)
Fixpoint members (trailing b : bool) (i : list token) (ms : list named_fun) : Prop :=
  match ms with
  | nil => True
  | NamedFun x (FunDef ps body k l) :: ms' =>
    exists p n j k0 r, i = p ++ n :: j /\ t_type n = Identifier /\ t_lexeme n = x /\ tloc n = l /\
      derives trailing b (Function l) j (VF (FunDef ps body k0 l)) r /\
      (p = nil /\ (x = "init" /\ k = Initializer \/ x <> "init" /\ k = Method) \/
       (exists c, p = [c] /\ t_type c = Class) /\ k = ClassMethod) /\
      members trailing b r ms'
  end.
