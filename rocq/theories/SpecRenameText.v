(** Specification: sources with other names.  Independent of the models. *)
From Verif Require Import Base F64 Token Ast Scanner Resolver SpecLex SpecPlace SpecRename.

(** An element of a source with other names [r]: a name becomes the other name; a string becomes any string with the
    other value; the text of a comment is free; everything else stays. *)
Inductive renamed_elem (r : string -> string) : elem -> elem -> Prop :=
| re_name : forall text text' x, sconcat text' = r (sconcat text) ->
    renamed_elem r (Tok Identifier text None x) (Tok Identifier text' None x)
| re_string : forall text text' v x,
    renamed_elem r (Tok TString text (Some v) x) (Tok TString text' (Some (r v)) x)
| re_comment : forall text text', renamed_elem r (Comment text) (Comment text')
| re_other : forall k text x, k <> Identifier -> k <> TString ->
    renamed_elem r (Tok k text None x) (Tok k text None x)
| re_blank : forall e, match e with Tok _ _ _ _ => False | _ => True end -> renamed_elem r e e.

(** The tree [t'] is the tree [t] with other names, up to positions. *)
Definition renamed_trees (r : string -> string) (l l' : list stmt) : Prop :=
  map unplaced (map (renamed r r) l) = map unplaced l'.
(** The results of parsing. *)
Definition renamed_program (r : string -> string) (x y : outcome (result (list stmt) parse_error)) : Prop :=
  match x, y with
  | Done (Ok l), Done (Ok l') => renamed_trees r l l'
  | Done (Err cs), Done (Err cs') => map c_message cs = map c_message cs'
  | Diverged, Diverged => True
  | Panicked w, Panicked w' => w = w'
  | _, _ => False
  end.
Definition renamed_expression (r : string -> string) (x y : outcome (result expr parse_error)) : Prop :=
  match x, y with
  | Done (Ok e), Done (Ok e') => unplaced_expr (renamed_expr r r e) = unplaced_expr e'
  | Done (Err cs), Done (Err cs') => map c_message cs = map c_message cs'
  | Diverged, Diverged => True
  | Panicked w, Panicked w' => w = w'
  | _, _ => False
  end.
(** The results of resolving: errors mention the other names. *)
Definition renamed_resolution (r : string -> string) (x y : outcome (result (list stmt) parse_error)) : Prop :=
  match x, y with
  | Done (Ok l), Done (Ok l') => renamed_trees r l l'
  | Done (Err cs), Done (Err cs') =>
    map c_message cs = map c_message cs' /\ map (fun c => option_map r (c_token c)) cs = map c_token cs'
  | Diverged, Diverged => True
  | Panicked w, Panicked w' => w = w'
  | _, _ => False
  end.
(** Other names for whole programs: the name [init] keeps its meaning as well. *)
Definition renaming_all (r : string -> string) : Prop := renaming r /\ r "init" = "init".

(** A text that is a name. *)
Definition is_name (U : unicode) (text : list string) : Prop :=
  match text with
  | nil => False
  | g :: gs => ~ In g special /\ ~ digit_cluster g /\ starts_word U g /\ Forall (continues_word U) gs /\
               ~ In (sconcat text) (map fst reserved)
  end.

(** The elements of a source with the names [R] for its names. *)
Definition rename_elem (R : list string -> list string) (e : elem) : elem :=
  match e with Tok Identifier text s x => Tok Identifier (R text) s x | e => e end.
(** [R] gives every name of the source a name, [r] describes it on strings, and strings in the source are no names
    that [r] changes. *)
Definition rewrites (U : unicode) (R : list string -> list string) (r : string -> string) (e : elem) : Prop :=
  match e with
  | Tok Identifier text _ _ => is_name U (R text) /\ valid_source (R text) /\ sconcat (R text) = r (sconcat text)
  | Tok TString _ (Some v) _ => r v = v
  | _ => True
  end.
