(** What can be said on one line.  Independent of the models. *)
From Verif Require Import Base F64 Token Ast SpecLex SpecTree SpecPrint SpecWrite.

(** A text as [read_line] returns it: no newline except perhaps at the end. *)
Definition single_line (gs : list string) : Prop := ~ In s_nl (removelast gs).

(** A variable whose initialiser starts with a map. *)
Definition braced_var (st : stmt) : Prop :=
  match st with SVar _ _ e _ => brace_first e = true | _ => True end.
(** Not a statement that is ended by the end of its line; variables of bodies
    and blocks have initialisers that start with a map, except that of a [for]. *)
Definition idle (p : part) : Prop :=
  match p with
  | PStmt (SExpression _ | SPrint _ | SReturn _ _ | SBreak _ | SContinue _) => False
  | PStmt (SBlock [SVar _ _ _ _; (SWhile _ _ | SWhileIncrement _ _ _)]) => True
  | PStmt (SBlock b) | PFun (FunDef _ b _ _) => Forall braced_var b
  | _ => True
  end.
Definition idles (l : list part) : Prop := Forall idle l.

(** The last statement of a line: at most one statement in it is ended by the
    end of the line, and it is the last one. *)
Fixpoint line_last (st : stmt) : Prop :=
  match st with
  | SExpression e | SPrint e | SReturn e _ | SVar _ _ e _ => idles (expr_parts e)
  | SBreak _ | SContinue _ => True
  | SIf c a None => idles (expr_parts c) /\ line_last a
  | SIf c a (Some b) => idles (expr_parts c) /\ idles (parts a) /\ line_last b
  | SWhile c b => idles (expr_parts c) /\ line_last b
  | SWhileIncrement c b i => idles (expr_parts c) /\ idles (expr_parts i) /\ line_last b
  | SBlock [SVar _ _ e _; (SWhile _ _ | SWhileIncrement _ _ _) as w] => idles (expr_parts e) /\ line_last w
  | _ => idles (parts st)
  end.
(** The statements of a line. *)
Definition sayable (l : list stmt) : Prop :=
  (idles (program_parts l) /\ Forall braced_var l) \/
  exists l' st, l = l' ++ [st] /\ idles (program_parts l') /\ Forall braced_var l' /\ line_last st.

(** The statement can be ended by the end of the line. *)
Fixpoint line_ended (st : stmt) : bool :=
  match st with
  | SExpression _ | SPrint _ | SReturn _ _ | SBreak _ | SContinue _ | SVar _ _ _ _ => true
  | SIf _ a None => line_ended a
  | SIf _ _ (Some b) => line_ended b
  | SWhile _ b | SWhileIncrement _ b _ => line_ended b
  | SBlock [SVar _ _ _ _; (SWhile _ _ | SWhileIncrement _ _ _) as w] => line_ended w
  | _ => false
  end.

(** ** What the printer of SpecWrite.v writes on one line *)
(** Not a statement that it ends with a newline. *)
Definition terse (p : part) : Prop :=
  match p with
  | PStmt (SExpression _ | SPrint _ | SReturn _ _ | SBreak _ | SContinue _ | SVar _ _ _ _) => False
  | _ => True
  end.
Fixpoint terse_last (st : stmt) : Prop :=
  match st with
  | SExpression e | SPrint e | SReturn e _ | SVar _ _ e _ => Forall terse (expr_parts e)
  | SBreak _ | SContinue _ => True
  | SIf c a None => Forall terse (expr_parts c) /\ terse_last a
  | SIf c a (Some b) => Forall terse (expr_parts c) /\ Forall terse (parts a) /\ terse_last b
  | SWhile c b => Forall terse (expr_parts c) /\ terse_last b
  | SWhileIncrement c b i => Forall terse (expr_parts c) /\ Forall terse (expr_parts i) /\ terse_last b
  | _ => Forall terse (parts st)
  end.
Definition terse_line (l : list stmt) : Prop :=
  Forall terse (program_parts l) \/
  exists l' st, l = l' ++ [st] /\ Forall terse (program_parts l') /\ terse_last st.
(** A string in ASCII without a line break. *)
Definition line_text (s : string) : Prop := ascii_text s /\ ~ In s_nl (chars s).
Definition line_program (l : list stmt) : Prop := Forall (writable ascii_name line_text literal) (program_parts l).
