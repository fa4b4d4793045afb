(** What the resolver sees of a program (C102): the names that are read, written, declared and defined, in the order of
    the text, the blocks, functions and classes around them, and the places of [return] and [super].  Everything else is
    left out: which operators and literals there are, parentheses, the names of properties and the keys of maps, whether
    an expression is printed or not, and which of [if], [while] and [for] a statement is. *)
From Verif Require Import Base F64 Token Ast Resolver SpecPlace.
Local Open Scope string_scope.
Local Open Scope list_scope.

Inductive event : Type :=
| Reads (x : string) (l : source_loc)
| Writes (x : string) (l : source_loc)
| Supers (l : source_loc)
| Returns (nothing : bool) (l : source_loc)
| Declares (x : string) (l : source_loc)
| Defines (x : string) (l : source_loc)
| InBlock (es : list event)
| InFunction (ps : list (string * source_loc)) (es : list event)
| InClass (x : string) (l : source_loc) (super : option (option source_loc * list event))
        (methods : list (bool * list (string * source_loc) * list event)).

Definition parameter (p : param) : string * source_loc := (p_name p, p_loc p).
(** The place of a superclass that is the class itself. *)
Definition own_name (x : string) (e : expr) : option source_loc :=
  match e with EVariable y _ l => if y =? x then Some l else None | _ => None end.
Definition is_nil (e : expr) : bool := match e with ENil => true | _ => false end.

Fixpoint outline (st : stmt) : list event :=
  match st with
  | SBlock b => [InBlock (flat_map outline b)]
  | SBreak _ | SContinue _ => nil
  | SClass (ClassDef x super ms l) =>
    [InClass x l (match super with Some e => Some (own_name x e, expr_outline e) | None => None end)
           (map (fun m => match m with
                          | NamedFun n (FunDef ps b _ _) => (n =? "init", map parameter ps, flat_map outline b)
                          end) ms)]
  | SExpression e | SPrint e => expr_outline e
  | SFun (NamedFun x (FunDef ps b _ l)) => [Defines x l; InFunction (map parameter ps) (flat_map outline b)]
  | SIf c t e => expr_outline c ++ outline t ++ match e with Some s => outline s | None => nil end
  | SReturn e l => Returns (is_nil e) l :: expr_outline e
  | SVar x _ e l => Declares x l :: expr_outline e ++ [Defines x l]
  | SWhile c b => expr_outline c ++ outline b
  | SWhileIncrement c b i => expr_outline c ++ outline b ++ expr_outline i
  end
with expr_outline (ex : expr) : list event :=
  match ex with
  | EAssign x _ e l => expr_outline e ++ [Writes x l]
  | ECall f args _ => expr_outline f ++ flat_map expr_outline args
  | EBinary a _ b _ | ELogical a _ b => expr_outline a ++ expr_outline b
  | EFunction (FunDef ps b _ _) => [InFunction (map parameter ps) (flat_map outline b)]
  | EGet e _ _ | EGrouping e | EUnary _ e _ => expr_outline e
  | EGetIndex e i _ => expr_outline e ++ expr_outline i
  | EArray es => flat_map expr_outline es
  | EMap m => flat_map (fun kv => match kv with (_, e) => expr_outline e end) m
  | EBool _ | ENil | ENumber _ | EString _ => nil
  | ESet o _ v _ => expr_outline o ++ expr_outline v
  | ESetIndex a i v _ => expr_outline a ++ expr_outline i ++ expr_outline v
  | ESuper _ _ l => [Supers l]
  | EVariable x _ l => [Reads x l]
  end.

(** The results the resolver writes into a tree, in the order of the outline. *)
Inductive cell : Type := At (v : var_loc) | Slot (i : slot_index).

Fixpoint cells (st : stmt) : list cell :=
  match st with
  | SBlock b => flat_map cells b
  | SBreak _ | SContinue _ => nil
  | SClass (ClassDef x super ms l) =>
    match super with Some e => expr_cells e | None => nil end ++
    flat_map (fun m => match m with NamedFun _ (FunDef _ b _ _) => flat_map cells b end) ms
  | SExpression e | SPrint e | SReturn e _ => expr_cells e
  | SFun (NamedFun _ (FunDef _ b _ _)) => flat_map cells b
  | SIf c t e => expr_cells c ++ cells t ++ match e with Some s => cells s | None => nil end
  | SVar _ i e _ => Slot i :: expr_cells e
  | SWhile c b => expr_cells c ++ cells b
  | SWhileIncrement c b i => expr_cells c ++ cells b ++ expr_cells i
  end
with expr_cells (ex : expr) : list cell :=
  match ex with
  | EAssign _ v e _ => expr_cells e ++ [At v]
  | ECall f args _ => expr_cells f ++ flat_map expr_cells args
  | EBinary a _ b _ | ELogical a _ b => expr_cells a ++ expr_cells b
  | EFunction (FunDef _ b _ _) => flat_map cells b
  | EGet e _ _ | EGrouping e | EUnary _ e _ => expr_cells e
  | EGetIndex e i _ => expr_cells e ++ expr_cells i
  | EArray es => flat_map expr_cells es
  | EMap m => flat_map (fun kv => match kv with (_, e) => expr_cells e end) m
  | EBool _ | ENil | ENumber _ | EString _ => nil
  | ESet o _ v _ => expr_cells o ++ expr_cells v
  | ESetIndex a i v _ => expr_cells a ++ expr_cells i ++ expr_cells v
  | ESuper v _ _ => [At v]
  | EVariable _ v _ => [At v]
  end.

(** The resolver says the same of two programs, up to positions: the same results in the same order and the same
    errors, and it is left in the same state. *)
Definition says_the_same (x y : outcome (result (list stmt) parse_error * rstate)) : Prop :=
  match x, y with
  | Done (Ok a, s1), Done (Ok a', s2) => flat_map cells a = flat_map cells a' /\ s1 = s2
  | Done (Err e, s1), Done (Err e', s2) => same_messages e e' /\ s1 = s2
  | Panicked w, Panicked w' => w = w'
  | _, _ => False
  end.
