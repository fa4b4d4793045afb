(** Vocabulary for texts that get longer, and for tables that change. *)
From Verif Require Import Base F64 Token Ast Scanner SpecLex.

(** No string is left open at the end of the text. *)
Definition strings_closed (es : list elem) : Prop := forall t, ~ In (OpenString t) es.

(** The tables say the same of the first character of the cluster. *)
Definition same_class (U U' : unicode) (g : string) : Prop :=
  forall c, first_char g = Some c ->
    u_alphabetic U c = u_alphabetic U' c /\ u_alphanumeric U c = u_alphanumeric U' c.

(** What lines have been scanned to, and what they are scanned to when more lines follow. *)
Definition extends (x y : outcome (result (list token) (list cause))) : Prop :=
  match x with
  | Diverged => y = Diverged
  | Done (Err cs) => y = Diverged \/ exists cs', y = Done (Err (cs ++ cs'))
  | Done (Ok toks) => exists kept outs eof, toks = kept ++ outs ++ [eof] /\
      Forall (fun t => t_type t = Outdent) outs /\ t_type eof = Eof /\
      (y = Diverged \/ (exists cs, y = Done (Err cs)) \/ exists more, y = Done (Ok (kept ++ more)))
  | _ => False
  end.
