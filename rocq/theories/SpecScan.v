(** Specification vocabulary for the single properties of scanning. *)
From Verif Require Import Base F64 Token SpecLex SpecLayout.

(** ** Lines and open levels *)
Definition source_lines (es : list elem) : list line := split_lines nil (place nil es).

Definition is_blank_line (l : line) : Prop := content (body l) = nil.

(** The open levels after the first element of a line at width [w]. *)
Definition new_levels (stack : list N) (joined : bool) (w : N) : list N :=
  if (w =? hd 0%N stack)%N then stack
  else if (hd 0%N stack <? w)%N then if joined then stack else w :: stack
  else filter (fun n => n <=? w)%N stack.

(** Open levels (innermost first), and whether the next line continues the
    last one, after the lines [ls]. *)
Fixpoint walk (stack : list N) (joined : bool) (ls : list line) : list N * bool :=
  match ls with
  | nil => (stack, joined)
  | l :: r =>
    walk (match content (body l) with
          | nil => stack
          | _ => new_levels stack joined (indentation (body l))
          end) (joins_next joined l) r
  end.
Definition open_levels (ls : list line) : list N := fst (walk nil false ls).
Definition is_joined (ls : list line) : bool := snd (walk nil false ls).

(** The line [l], coming after the lines [pre], is dedented to a width strictly
    between two open levels. *)
Definition between_levels (pre : list line) (l : line) : Prop :=
  let w := indentation (body l) in
  ~ is_blank_line l /\ (w < hd 0%N (open_levels pre))%N /\
  ~ In w (open_levels pre) /\ exists n, In n (open_levels pre) /\ (n < w)%N.
(** ... to a non-zero width below every open level. *)
Definition below_levels (pre : list line) (l : line) : Prop :=
  let w := indentation (body l) in
  ~ is_blank_line l /\ open_levels pre <> nil /\ (0 < w)%N /\
  forall n, In n (open_levels pre) -> (w < n)%N.

Definition some_line (p : list line -> line -> Prop) (es : list elem) : Prop :=
  exists pre l post, source_lines es = pre ++ l :: post /\ p pre l.

(** ** Elements *)
Definition is_illegal (e : elem) : bool :=
  match e with
  | StrayTab | StrayBackslash _ | Stray _ | OpenString _ => true
  | _ => false
  end.

Definition is_tok (e : elem) : bool :=
  match e with Tok _ _ _ _ => true | _ => false end.

(** ** Tokens *)
Definition is_layout (k : token_type) : bool :=
  match k with Indent | Outdent | Terminator | Eof => true | _ => false end.
(** Tokens that stand for source text. *)
Definition from_text (t : token) : bool := negb (is_layout (t_type t)).
Definition count_kind (k : token_type) (ts : list token) : nat :=
  List.length (filter (fun t => tt_eqb (t_type t) k) ts).

(** A token without its position. *)
Definition payload (t : token) : token_type * string * option string * option f64 :=
  (t_type t, t_lexeme t, t_string t, t_float t).

(** The results agree up to positions. *)
Definition same_result (a b : outcome (result (list token) parse_error)) : Prop :=
  match a, b with
  | Done (Ok x), Done (Ok y) => map payload x = map payload y
  | Done (Err x), Done (Err y) => map c_message x = map c_message y
  | Diverged, Diverged => True
  | _, _ => False
  end.

(** [t] stands for the clusters [text], which come after [before]. *)
Definition stands_for (gs : list string) (t : token)
           (before text rest : list string) : Prop :=
  gs = before ++ text ++ rest /\ t_lexeme t = sconcat text /\
  tloc t = position before.

(** Kinds of tokens written as words. *)
Definition is_word_kind (k : token_type) : bool :=
  match k with
  | Identifier | And | Break | Class | Continue | Else | TFalse | Fun | For | If
  | Nil | Or | Print | Return | Super | This | TTrue | Var | While => true
  | _ => false
  end.

(** The text of a list of elements. *)
Definition text_of (es : list elem) : list string := flat_map elem_text es.

(** The last of the elements [a], or [prev]. *)
Definition last_elem_of (prev : option elem) (a : list elem) : option elem :=
  match rev a with nil => prev | e :: _ => Some e end.

(** A non-empty list of elements ending in a newline, or the empty list: what
    follows starts on a new line. *)
Definition whole_lines (es : list elem) : Prop :=
  es = nil \/ exists a, es = a ++ [Newline].

(** ** Errors *)

(** The error in front of line [l], which comes after the lines [pre]. *)
Definition mismatch (pre : list line) (l : line) : list cause :=
  let w := indentation (body l) in
  match content (body l), open_levels pre with
  | (before, _) :: _, _ :: _ =>
    if (0 <? w)%N && forallb (fun n => w <? n)%N (open_levels pre)
    then [cause_new (next_column (position before))
            "Outdent does not match any previous indentation level"]
    else nil
  | _, _ => nil
  end.
Fixpoint errors_of (pre ls : list line) : list cause :=
  match ls with
  | nil => nil
  | l :: r => elems_errors (leading (body l)) ++ mismatch pre l
                ++ elems_errors (content (body l)) ++ errors_of (pre ++ [l]) r
  end.

(** ** Layout tokens in front of a line *)
Definition opening (pre : list line) (l : line) : list token :=
  let w := indentation (body l) in
  let levels := open_levels pre in
  match content (body l) with
  | nil => nil
  | (before, e) :: _ =>
    let tok k := mk_at k (first_cluster e) None None (position before) in
    if (hd 0%N levels <? w)%N then if is_joined pre then nil else [tok Indent]
    else repeat (tok Outdent) (List.length (filter (fun n => w <? n)%N levels))
  end.
(** The element before the first element of the next line. *)
Definition before_next (pre : list line) : option elem :=
  match rev pre with nil => None | l :: _ => last_elem l end.
(** All tokens up to the end of file. *)
Fixpoint tokens_of (pre ls : list line) : list token :=
  match ls with
  | nil => nil
  | l :: r => opening pre l ++ elems_tokens (before_next pre) (body l)
                ++ terminator l ++ tokens_of (pre ++ [l]) r
  end.

(** The lines [l] ends by an operator or backslash that continues it. *)
Definition continued (l : line) : Prop :=
  match ending l with
  | ByNewline _ => continuing (body l) = true
  | ByContinuation _ => True
  | ByEof => False
  end.
