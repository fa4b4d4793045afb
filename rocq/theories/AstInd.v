(** Induction over syntax trees, through the lists inside them. *)
From Verif Require Import Base F64 Token Ast.

Section Ind.
Variable Ps : stmt -> Prop.
Variable Pe : expr -> Prop.
Variable Pc : class_def -> Prop.
Variable Pf : fun_def -> Prop.

Definition Popt {A} (P : A -> Prop) (o : option A) : Prop :=
  match o with Some a => P a | None => True end.
Definition Pn (n : named_fun) : Prop := match n with NamedFun _ f => Pf f end.

Hypothesis HBlock : forall b, Forall Ps b -> Ps (SBlock b).
Hypothesis HBreak : forall l, Ps (SBreak l).
Hypothesis HClass : forall c, Pc c -> Ps (SClass c).
Hypothesis HContinue : forall l, Ps (SContinue l).
Hypothesis HExpression : forall e, Pe e -> Ps (SExpression e).
Hypothesis HFun : forall n f, Pf f -> Ps (SFun (NamedFun n f)).
Hypothesis HIf : forall c t e, Pe c -> Ps t -> Popt Ps e -> Ps (SIf c t e).
Hypothesis HPrint : forall e, Pe e -> Ps (SPrint e).
Hypothesis HReturn : forall e l, Pe e -> Ps (SReturn e l).
Hypothesis HVar : forall x s e l, Pe e -> Ps (SVar x s e l).
Hypothesis HWhile : forall c b, Pe c -> Ps b -> Ps (SWhile c b).
Hypothesis HWhileIncrement : forall c b i,
  Pe c -> Ps b -> Pe i -> Ps (SWhileIncrement c b i).
Hypothesis HAssign : forall x v e l, Pe e -> Pe (EAssign x v e l).
Hypothesis HCall : forall f args l, Pe f -> Forall Pe args -> Pe (ECall f args l).
Hypothesis HBinary : forall a op b l, Pe a -> Pe b -> Pe (EBinary a op b l).
Hypothesis HFunction : forall f, Pf f -> Pe (EFunction f).
Hypothesis HGet : forall e p l, Pe e -> Pe (EGet e p l).
Hypothesis HGetIndex : forall e i l, Pe e -> Pe i -> Pe (EGetIndex e i l).
Hypothesis HGrouping : forall e, Pe e -> Pe (EGrouping e).
Hypothesis HArray : forall es, Forall Pe es -> Pe (EArray es).
Hypothesis HBool : forall b, Pe (EBool b).
Hypothesis HMap : forall m, Forall (fun kv => Pe (snd kv)) m -> Pe (EMap m).
Hypothesis HNumber : forall x, Pe (ENumber x).
Hypothesis HNil : Pe ENil.
Hypothesis HString : forall s, Pe (EString s).
Hypothesis HLogical : forall a op b, Pe a -> Pe b -> Pe (ELogical a op b).
Hypothesis HSet : forall o p v l, Pe o -> Pe v -> Pe (ESet o p v l).
Hypothesis HSetIndex : forall a i v l, Pe a -> Pe i -> Pe v -> Pe (ESetIndex a i v l).
Hypothesis HSuper : forall v m l, Pe (ESuper v m l).
Hypothesis HVariable : forall x v l, Pe (EVariable x v l).
Hypothesis HUnary : forall op e l, Pe e -> Pe (EUnary op e l).
Hypothesis HClassDef : forall n s ms l,
  Popt Pe s -> Forall Pn ms -> Pc (ClassDef n s ms l).
Hypothesis HFunDef : forall ps b ft l, Forall Ps b -> Pf (FunDef ps b ft l).

Fixpoint stmt_tree (st : stmt) : Ps st :=
  match st with
  | SBlock b =>
    HBlock b ((fix go l : Forall Ps l :=
                 match l with
                 | nil => Forall_nil Ps
                 | x :: r => Forall_cons x (stmt_tree x) (go r)
                 end) b)
  | SBreak l => HBreak l
  | SClass c => HClass c (class_tree c)
  | SContinue l => HContinue l
  | SExpression e => HExpression e (expr_tree e)
  | SFun (NamedFun n f) => HFun n f (fun_tree f)
  | SIf c t e =>
    HIf c t e (expr_tree c) (stmt_tree t)
        (match e return Popt Ps e with
         | Some x => stmt_tree x
         | None => I
         end)
  | SPrint e => HPrint e (expr_tree e)
  | SReturn e l => HReturn e l (expr_tree e)
  | SVar x s e l => HVar x s e l (expr_tree e)
  | SWhile c b => HWhile c b (expr_tree c) (stmt_tree b)
  | SWhileIncrement c b i =>
    HWhileIncrement c b i (expr_tree c) (stmt_tree b) (expr_tree i)
  end
with expr_tree (ex : expr) : Pe ex :=
  let exprs := fix go l : Forall Pe l :=
                 match l with
                 | nil => Forall_nil Pe
                 | x :: r => Forall_cons x (expr_tree x) (go r)
                 end in
  match ex with
  | EAssign x v e l => HAssign x v e l (expr_tree e)
  | ECall f args l => HCall f args l (expr_tree f) (exprs args)
  | EBinary a op b l => HBinary a op b l (expr_tree a) (expr_tree b)
  | EFunction f => HFunction f (fun_tree f)
  | EGet e p l => HGet e p l (expr_tree e)
  | EGetIndex e i l => HGetIndex e i l (expr_tree e) (expr_tree i)
  | EGrouping e => HGrouping e (expr_tree e)
  | EArray es => HArray es (exprs es)
  | EBool b => HBool b
  | EMap m =>
    HMap m ((fix go l : Forall (fun kv => Pe (snd kv)) l :=
               match l with
               | nil => Forall_nil _
               | x :: r => Forall_cons x (expr_tree (snd x)) (go r)
               end) m)
  | ENumber x => HNumber x
  | ENil => HNil
  | EString s => HString s
  | ELogical a op b => HLogical a op b (expr_tree a) (expr_tree b)
  | ESet o p v l => HSet o p v l (expr_tree o) (expr_tree v)
  | ESetIndex a i v l => HSetIndex a i v l (expr_tree a) (expr_tree i) (expr_tree v)
  | ESuper v m l => HSuper v m l
  | EVariable x v l => HVariable x v l
  | EUnary op e l => HUnary op e l (expr_tree e)
  end
with class_tree (c : class_def) : Pc c :=
  match c with
  | ClassDef n s ms l =>
    HClassDef n s ms l
      (match s return Popt Pe s with Some e => expr_tree e | None => I end)
      ((fix go l : Forall Pn l :=
          match l with
          | nil => Forall_nil Pn
          | (NamedFun x f) :: r =>
            Forall_cons (NamedFun x f) (fun_tree f : Pn (NamedFun x f)) (go r)
          end) ms)
  end
with fun_tree (f : fun_def) : Pf f :=
  match f with
  | FunDef ps b ft l =>
    HFunDef ps b ft l
      ((fix go l : Forall Ps l :=
          match l with
          | nil => Forall_nil Ps
          | x :: r => Forall_cons x (stmt_tree x) (go r)
          end) b)
  end.

Lemma tree_ind : (forall st, Ps st) /\ (forall e, Pe e) /\ (forall c, Pc c) /\ (forall f, Pf f).
Proof.
  exact (conj stmt_tree (conj expr_tree (conj class_tree fun_tree))).
Qed.
End Ind.
