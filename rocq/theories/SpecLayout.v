(** Specification: the token stream of a source, line by line.

    The elements of the source (SpecLex) are grouped into lines.  The
    indentation of a line is compared with the open blocks; the tokens of the
    line follow; the newline that ends it becomes a Terminator, or not.
    Independent of the scanner model. *)
From Verif Require Import Base F64 Token SpecLex.

(** An element with the text before it. *)
Notation placed := (list string * elem)%type.

(** One place further right on the same line. *)
Definition next_column (l : source_loc) : source_loc :=
  mkLoc (loc_line l) (N.min u16_max (loc_column l + 1)).

(** ** Lines *)

(** What ends a line: a newline (with the text before it), a backslash
    continuation, or the end of the file. *)
Inductive line_end : Type :=
| ByNewline (before : list string)
| ByContinuation (e : elem)
| ByEof.

Record line : Type := mkLine { body : list placed; ending : line_end }.

Fixpoint split_lines (acc : list placed) (es : list placed) : list line :=
  match es with
  | nil => [mkLine acc ByEof]
  | (before, e) :: r =>
    match e with
    | Newline => mkLine acc (ByNewline before) :: split_lines nil r
    | Continuation _ => mkLine acc (ByContinuation e) :: split_lines nil r
    | _ => split_lines (acc ++ [(before, e)]) r
    end
  end.

(** Elements that may precede the first significant element of a line. *)
Definition is_blank (e : elem) : bool :=
  match e with
  | Space | Return_ | StrayTab | StrayBackslash _ => true
  | _ => false
  end.
Fixpoint leading (l : list placed) : list placed :=
  match l with
  | (b, e) :: r => if is_blank e then (b, e) :: leading r else nil
  | nil => nil
  end.
Fixpoint content (l : list placed) : list placed :=
  match l with
  | (b, e) :: r => if is_blank e then content r else l
  | nil => nil
  end.
(** The indentation of a line: the number of its leading spaces. *)
Definition is_space (p : placed) : bool :=
  match snd p with Space => true | _ => false end.
Definition indentation (l : list placed) : N :=
  N.min u16_max (N.of_nat (List.length (filter is_space (leading l)))).

(** ** Single elements *)

Definition is_whitespace (e : elem) : bool :=
  match e with
  | Space | Return_ | Newline | StrayTab => true
  | _ => false
  end.
(** Does an open parenthesis after element [prev] make a call? *)
Definition abuts (prev : option elem) : bool :=
  match prev with
  | None => false
  | Some e => negb (is_whitespace e)
  end.

Definition mk_at (k : token_type) (text : string) (str : option string)
           (num : option f64) (l : source_loc) : token :=
  mkToken k text str num (loc_line l) (loc_column l).

Definition elem_tokens (prev : option elem) (p : placed) : list token :=
  match p with
  | (before, Tok k text str num) =>
    let k' := match k with
              | LeftParen => if abuts prev then LeftParenAbutting else LeftParen
              | _ => k
              end in
    [mk_at k' (sconcat text) str num (position before)]
  | _ => nil
  end.

Definition elem_errors (p : placed) : list cause :=
  match p with
  | (before, StrayTab) =>
    [cause_new (next_column (position before))
               "Illegal tab character; all whitespace must be spaces"]
  | (before, StrayBackslash _) =>
    [cause_new (position before)
       (String.append "Unexpected character: '" (String.append s_backslash "'"))]
  | (before, Stray g) =>
    [cause_new (next_column (position before))
               (String.append "Unexpected token: " g)]
  | (before, OpenString text) =>
    let l := position (before ++ text) in
    [cause_new (mkLoc (loc_line l) (N.min 65534 (loc_column l)))
               "Unterminated string."]
  | _ => nil
  end.

Fixpoint elems_tokens (prev : option elem) (l : list placed) : list token :=
  match l with
  | nil => nil
  | p :: r => elem_tokens prev p ++ elems_tokens (Some (snd p)) r
  end.
Definition elems_errors (l : list placed) : list cause :=
  flat_map elem_errors l.

(** ** Layout *)

(** A token after which the line continues. *)
Definition continuing_kind (k : token_type) : bool :=
  match k with
  | LeftParen | LeftBrace | LeftBracket | Colon | Comma | Dot | Minus | Plus
  | Star | Slash | Less | LessEqual | Greater | GreaterEqual => true
  | _ => false
  end.
Definition continuing (l : list placed) : bool :=
  match rev l with
  | (_, Tok k _ _ _) :: _ => continuing_kind k
  | _ => false
  end.
Definition is_comment_line (c : list placed) : bool :=
  match c with (_, Comment _) :: _ => true | _ => false end.

(** The first cluster of an element. *)
Definition first_cluster (e : elem) : string :=
  match elem_text e with nil => EmptyString | g :: _ => g end.

(** Layout tokens and errors in front of the first significant element
    [(before, e)] of a line indented by [w].  [stack] holds the open levels,
    innermost first; [joined] says that the line continues the previous one.
    [None]: the width lies between two open levels. *)
Definition open_line (stack : list N) (joined : bool) (w : N) (p : placed)
  : option (list token * list cause * list N) :=
  let '(before, e) := p in
  let tok k := mk_at k (first_cluster e) None None (position before) in
  let top := hd 0%N stack in
  if (w =? top)%N then Some (nil, nil, stack)
  else if (top <? w)%N then
    if joined then Some (nil, nil, stack)
    else Some ([tok Indent], nil, w :: stack)
  else
    let closed := filter (fun n => w <? n)%N stack in
    let still := filter (fun n => n <=? w)%N stack in
    let outdents := repeat (tok Outdent) (List.length closed) in
    match still with
    | n :: _ => if (n =? w)%N then Some (outdents, nil, still) else None
    | nil =>
      Some (outdents,
            if (w =? 0)%N then nil
            else [cause_new (next_column (position before))
                    "Outdent does not match any previous indentation level"],
            nil)
    end.

(** The Terminator of a line, if any. *)
Definition terminator (l : line) : list token :=
  match ending l with
  | ByNewline before =>
    match content (body l) with
    | nil => nil
    | c => if continuing (body l) || is_comment_line c then nil
           else [mk_at Terminator s_nl None None (position before)]
    end
  | _ => nil
  end.

(** Does the line after [l] continue it? *)
Definition joins_next (joined : bool) (l : line) : bool :=
  match ending l with
  | ByContinuation _ => true
  | _ => match content (body l) with
         | nil => joined
         | _ => continuing (body l)
         end
  end.

(** The element that ends the line, as predecessor of the next line. *)
Definition last_elem (l : line) : option elem :=
  match ending l with
  | ByNewline _ => Some Newline
  | ByContinuation e => Some e
  | ByEof => None
  end.

(** Tokens and errors of the lines, and the blocks still open after them. *)
Fixpoint layout (stack : list N) (joined : bool) (prev : option elem)
         (ls : list line) : option (list token * list cause * list N) :=
  match ls with
  | nil => Some (nil, nil, stack)
  | l :: r =>
    match
      match content (body l) with
      | nil => Some (nil, nil, stack)
      | first :: _ => open_line stack joined (indentation (body l)) first
      end
    with
    | None => None
    | Some (opening, mismatch, stack') =>
      match layout stack' (joins_next joined l) (last_elem l) r with
      | None => None
      | Some (toks, errs, final) =>
        Some (opening ++ elems_tokens prev (body l) ++ terminator l ++ toks,
              elems_errors (leading (body l)) ++ mismatch
                ++ elems_errors (content (body l)) ++ errs,
              final)
      end
    end
  end.

(** The end of the file: close the open blocks, then Eof.  At column 65535 the
    column of these tokens is one too small. *)
Definition closing (n : nat) (gs : list string) : list token :=
  let l := position gs in
  let at_end k := mkToken k "" None None (loc_line l) (N.min 65534 (loc_column l)) in
  repeat (at_end Outdent) n ++ [at_end Eof].

(** The whole scan: [None] when some line is dedented to a width that lies
    strictly between open levels. *)
Definition scan_spec (gs : list string) (es : list elem)
  : option (result (list token) parse_error) :=
  match layout nil false None (split_lines nil (place nil es)) with
  | None => None
  | Some (toks, nil, stack) => Some (Ok (toks ++ closing (List.length stack) gs))
  | Some (_, errs, _) => Some (Err errs)
  end.
