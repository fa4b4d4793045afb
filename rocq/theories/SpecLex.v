(** Specification: how a source text is cut into lexical elements, and where
    each element is.  Independent of the scanner model (of which only the data
    types and the classification oracle [unicode] are used). *)
From Verif Require Import Base F64 Token Scanner.

(** A lexical element of the source; [text] is always the list of its grapheme
    clusters. *)
Inductive elem : Type :=
| Tok (k : token_type) (text : list string)
      (str : option string) (num : option f64)
| Space
| Return_                         (* a carriage return on its own *)
| Newline
| Comment (text : list string)
| Continuation (text : list string)   (* backslash, spaces, newline *)
| StrayTab
| StrayBackslash (text : list string)
| Stray (g : string)
| OpenString (text : list string).    (* a string without closing quote *)

Definition elem_text (e : elem) : list string :=
  match e with
  | Tok _ t _ _ | Comment t | Continuation t | StrayBackslash t
  | OpenString t => t
  | Space => [" "]
  | Return_ => [s_cr]
  | Newline => [s_nl]
  | StrayTab => [s_tab]
  | Stray g => [g]
  end.

(** Single-cluster tokens that no following cluster can extend. *)
Definition punctuation : list (string * token_type) :=
  [("(", LeftParen); (")", RightParen); ("{", LeftBrace); ("}", RightBrace);
   ("[", LeftBracket); ("]", RightBracket); (":", Colon); (",", Comma);
   (".", Dot); ("-", Minus); ("+", Plus); (";", Semicolon); ("*", Star)].
(** Operators that [=] extends: (first cluster, alone, with [=]). *)
Definition eq_operators : list (string * token_type * token_type) :=
  [("!", Bang, BangEqual); ("=", Equal, EqualEqual); ("<", Less, LessEqual);
   (">", Greater, GreaterEqual)].
(** The reserved words. *)
Definition reserved : list (string * token_type) :=
  [("and", And); ("break", Break); ("class", Class); ("continue", Continue);
   ("else", Else); ("false", TFalse); ("for", For); ("fun", Fun); ("if", If);
   ("nil", Nil); ("or", Or); ("print", Print); ("return", Return);
   ("super", Super); ("this", This); ("true", TTrue); ("var", Var);
   ("while", While)].
(** Clusters that start an element by themselves. *)
Definition special : list string :=
  map fst punctuation ++ map (fun p => fst (fst p)) eq_operators
  ++ ["/"; s_backslash; s_tab; " "; s_cr; s_nl; s_quote].

(** A decimal digit cluster. *)
Definition digit_cluster (g : string) : Prop :=
  In g ["0"; "1"; "2"; "3"; "4"; "5"; "6"; "7"; "8"; "9"].
(** A cluster that may start / continue an identifier: its first code point is
    a letter (resp. letter or digit) or the underscore. *)
Definition starts_word (U : unicode) (g : string) : Prop :=
  exists c, first_char g = Some c /\ (u_alphabetic U c = true \/ c = 95%N).
Definition continues_word (U : unicode) (g : string) : Prop :=
  exists c, first_char g = Some c /\ (u_alphanumeric U c = true \/ c = 95%N).

(** The next cluster satisfies / does not satisfy [p]. *)
Definition next_is (p : string -> Prop) (rest : list string) : Prop :=
  match rest with nil => False | g :: _ => p g end.
Definition next_not (p : string -> Prop) (rest : list string) : Prop :=
  match rest with nil => True | g :: _ => ~ p g end.

(** The kind of a word. *)
Inductive word_kind : string -> token_type -> Prop :=
| WReserved w k : In (w, k) reserved -> word_kind w k
| WIdentifier w : ~ In w (map fst reserved) -> word_kind w Identifier.

(** [lexeme U e rest]: [e] is the element that the text [elem_text e ++ rest]
    starts with. *)
Inductive lexeme (U : unicode) : elem -> list string -> Prop :=
| LPunct g k rest :
    In (g, k) punctuation -> lexeme U (Tok k [g] None None) rest
| LOpEq g k1 k2 rest :
    In (g, k1, k2) eq_operators ->
    lexeme U (Tok k2 [g; "="] None None) rest
| LOp g k1 k2 rest :
    In (g, k1, k2) eq_operators -> next_not (eq "=") rest ->
    lexeme U (Tok k1 [g] None None) rest
| LSlash rest :
    next_not (eq "/") rest -> lexeme U (Tok Slash ["/"] None None) rest
| LComment body rest :
    Forall (fun g => g <> s_nl) body -> next_not (fun g => g <> s_nl) rest ->
    lexeme U (Comment ("/" :: "/" :: body)) rest
| LString body rest :
    Forall (fun g => g <> s_quote) body ->
    lexeme U (Tok TString (s_quote :: body ++ [s_quote])
                  (Some (sconcat body)) None) rest
| LOpenString body :
    Forall (fun g => g <> s_quote) body ->
    lexeme U (OpenString (s_quote :: body)) nil
| LInteger ds rest x :
    ds <> nil -> Forall digit_cluster ds -> next_not digit_cluster rest ->
    ~ (exists d r, rest = "." :: d :: r /\ digit_cluster d) ->
    parse_f64 (sconcat ds) = Some x ->
    lexeme U (Tok Number ds None (Some x)) rest
| LDecimal ds fs rest x :
    ds <> nil -> Forall digit_cluster ds ->
    fs <> nil -> Forall digit_cluster fs -> next_not digit_cluster rest ->
    parse_f64 (sconcat (ds ++ "." :: fs)) = Some x ->
    lexeme U (Tok Number (ds ++ "." :: fs) None (Some x)) rest
| LWord g gs rest k :
    ~ In g special -> ~ digit_cluster g -> starts_word U g ->
    Forall (continues_word U) gs -> next_not (continues_word U) rest ->
    word_kind (sconcat (g :: gs)) k ->
    lexeme U (Tok k (g :: gs) None None) rest
| LSpace rest : lexeme U Space rest
| LReturn rest : lexeme U Return_ rest
| LNewline rest : lexeme U Newline rest
| LTab rest : lexeme U StrayTab rest
| LContinuation n cr rest :
    cr = nil \/ cr = [s_cr] ->
    lexeme U (Continuation (s_backslash :: repeat " " n ++ cr ++ [s_nl])) rest
| LStrayBackslash n rest :
    next_not (fun g => g = " " \/ g = s_cr \/ g = s_nl) rest ->
    lexeme U (StrayBackslash (s_backslash :: repeat " " n)) rest
| LStrayBackslashCR n rest :
    next_not (eq s_nl) rest ->
    lexeme U (StrayBackslash (s_backslash :: repeat " " n ++ [s_cr])) rest
| LStray g rest :
    ~ In g special -> ~ digit_cluster g -> ~ starts_word U g ->
    lexeme U (Stray g) rest.

(** [lexes U gs es]: the text [gs] consists of the elements [es]. *)
Inductive lexes (U : unicode) : list string -> list elem -> Prop :=
| LexNil : lexes U nil nil
| LexCons e rest es :
    lexeme U e rest -> lexes U rest es -> lexes U (elem_text e ++ rest) (e :: es).

(** ** Positions.
    The position of the cluster that follows the clusters [before]: one plus
    the number of newlines before it, one plus the number of clusters since
    the last newline, capped at the ranges of u32 and u16. *)
Definition newlines (before : list string) : nat :=
  count_occ String.string_dec before s_nl.
Fixpoint since_newline (n : nat) (before : list string) : nat :=
  match before with
  | nil => n
  | g :: r => if String.eqb g s_nl then since_newline 0 r
              else since_newline (S n) r
  end.
Definition position (before : list string) : source_loc :=
  mkLoc (N.min u32_max (1 + N.of_nat (newlines before)))
        (N.min u16_max (1 + N.of_nat (since_newline 0 before))).

(** The elements together with the text before them. *)
Fixpoint place (before : list string) (es : list elem)
  : list (list string * elem) :=
  match es with
  | nil => nil
  | e :: r => (before, e) :: place (before ++ elem_text e) r
  end.

(** A source as the grapheme iterator delivers it: clusters are non-empty and
    begin on a character boundary. *)
Definition starts_char (g : string) : Prop :=
  match g with
  | EmptyString => False
  | String c _ => (N_of_ascii c < 128)%N \/ (192 <= N_of_ascii c)%N
  end.
Definition valid_source (gs : list string) : Prop := Forall starts_char gs.

(** What is assumed of the classification oracle: the newline is neither letter
    nor digit (true of [char::is_alphanumeric]). *)
Definition sane (U : unicode) : Prop := u_alphanumeric U 10%N = false.
