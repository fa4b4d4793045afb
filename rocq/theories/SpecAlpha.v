(** Local names do not matter (C105): two programs are the same up to the names of local variables, functions, classes and
    parameters.  Defined on outlines (SpecOutline.v). *)
From Verif Require Import Base F64 Token Ast Resolver SpecOutline.
Local Open Scope string_scope.
Local Open Scope list_scope.

(** The local scopes, innermost first: the names of the one program with those of the other, in order of declaration. *)
Definition partners : Type := list (list (string * string)).
(** The two names mean the same: the same local name, or the same global. *)
Fixpoint meant (E : partners) (x x' : string) : Prop :=
  match E with
  | nil => x = x'
  | f :: r => In (x, x') f \/ (~ In x (map fst f) /\ ~ In x' (map snd f) /\ meant r x x')
  end.
(** The names are declared in the current scope.  Globals keep their names. *)
Inductive introduce : partners -> string -> string -> partners -> Prop :=
| in_global : forall x, introduce nil x x nil
| in_local : forall f r x x', ~ In x (map fst f) -> ~ In x' (map snd f) -> introduce (f :: r) x x' ((f ++ [(x, x')]) :: r)
| in_again : forall f r x x', In (x, x') f -> introduce (f :: r) x x' (f :: r).
Inductive introduce_all : partners -> list (string * source_loc) -> list (string * source_loc) -> partners -> Prop :=
| ia_nil : forall E, introduce_all E nil nil E
| ia_cons : forall E x x' l E1 ps ps' E2, introduce E x x' E1 -> introduce_all E1 ps ps' E2 ->
    introduce_all E ((x, l) :: ps) ((x', l) :: ps') E2.

Inductive alpha : partners -> event -> event -> partners -> Prop :=
| al_reads : forall E x x' l, meant E x x' -> (x = "this" <-> x' = "this") -> alpha E (Reads x l) (Reads x' l) E
| al_writes : forall E x x' l, meant E x x' -> alpha E (Writes x l) (Writes x' l) E
| al_supers : forall E l, meant E "super" "super" -> alpha E (Supers l) (Supers l) E
| al_returns : forall E b l, alpha E (Returns b l) (Returns b l) E
| al_declares : forall E x x' l E', introduce E x x' E' -> alpha E (Declares x l) (Declares x' l) E'
| al_defines : forall E x x' l E', introduce E x x' E' -> alpha E (Defines x l) (Defines x' l) E'
| al_block : forall E es es' f, alpha_all (nil :: E) es es' (f :: E) -> alpha E (InBlock es) (InBlock es') E
| al_function : forall E ps ps' es es', alpha_function E ps es ps' es' -> alpha E (InFunction ps es) (InFunction ps' es') E
| al_class : forall E x x' l E1 ms ms', introduce E x x' E1 ->
    alpha_methods ([("this", "this")] :: E1) ms ms' -> alpha E (InClass x l None ms) (InClass x' l None ms') E1
| al_subclass : forall E x x' l own es es' E1 ms ms', introduce E x x' E1 -> alpha_all E1 es es' E1 ->
    alpha_methods ([("this", "this")] :: [("super", "super")] :: E1) ms ms' ->
    alpha E (InClass x l (Some (own, es)) ms) (InClass x' l (Some (own, es')) ms') E1
with alpha_all : partners -> list event -> list event -> partners -> Prop :=
| al_nil : forall E, alpha_all E nil nil E
| al_cons : forall E e e' E1 es es' E2, alpha E e e' E1 -> alpha_all E1 es es' E2 -> alpha_all E (e :: es) (e' :: es') E2
with alpha_function : partners -> list (string * source_loc) -> list event ->
                      list (string * source_loc) -> list event -> Prop :=
| al_fun : forall E ps es ps' es' f f', introduce_all (nil :: E) ps ps' (f :: E) -> alpha_all (f :: E) es es' (f' :: E) ->
    alpha_function E ps es ps' es'
with alpha_methods : partners -> list (bool * list (string * source_loc) * list event) ->
                     list (bool * list (string * source_loc) * list event) -> Prop :=
| al_no_method : forall E, alpha_methods E nil nil
| al_method : forall E init ps es ps' es' ms ms', alpha_function E ps es ps' es' -> alpha_methods E ms ms' ->
    alpha_methods E ((init, ps, es) :: ms) ((init, ps', es') :: ms').

Definition alpha_program (l l' : list stmt) : Prop := Forall2 (fun st st' => alpha_all nil (outline st) (outline st') nil) l l'.
(** The same complaint at the same place; the name may be another. *)
Definition same_complaint (c c' : cause) : Prop := c_loc c = c_loc c' /\ c_message c = c_message c'.
(** The same complaints, wherever they are. *)
Definition same_grounds (e e' : parse_error) : Prop := Forall2 (fun c c' => c_message c = c_message c') e e'.
(** The resolver gives the same results in the same order, or complains for the same reasons, and is left in the same
    state. *)
Definition grounds_alike (x y : outcome (result (list stmt) parse_error * rstate)) : Prop :=
  match x, y with
  | Done (Ok a, s1), Done (Ok a', s2) => flat_map cells a = flat_map cells a' /\ s1 = s2
  | Done (Err e, s1), Done (Err e', s2) => same_grounds e e' /\ s1 = s2
  | Panicked w, Panicked w' => w = w'
  | _, _ => False
  end.
