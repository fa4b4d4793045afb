(** Programs as text: a printer from syntax trees to source texts, and which
    trees it applies to.  Independent of the models. *)
From Coq Require Import ZArith Floats.SpecFloat.
From Verif Require Import Base F64 Token Ast Scanner SpecNumber SpecLex SpecTree SpecPrint.
Local Open Scope string_scope.

(** ** Trees that can be written *)
Section Writable.
(** The names, strings and numbers that can be written. *)
Variables name text : string -> Prop.
Variable number : f64 -> Prop.
(** An expression statement must not start with an empty map: braces would open
    a block. *)
Definition writable (p : part) : Prop :=
  match p with
  | PStmt st =>
    match st with
    | SExpression e => empty_first e = false
    | SVar x _ _ _ | SFun (NamedFun x _) => name x
    | _ => True
    end
  | PExpr e =>
    match e with
    | EVariable x _ _ => x = "this" \/ name x
    | EAssign x _ _ _ | EGet _ x _ | ESet _ x _ _ | ESuper _ x _ => name x
    | ENumber x => number x
    | EString s => text s
    | EMap m => Forall (fun kv => text (fst kv)) m
    | _ => True
    end
  | PClass (ClassDef x s ms _) =>
    name x /\ match s with Some (EVariable y _ _) => name y | _ => True end /\
    Forall (fun n => match n with NamedFun m _ => name m end) ms
  | PFun (FunDef ps _ _ _) => Forall (fun p => name (p_name p)) ps
  end.
End Writable.
Definition no_empty_first (p : part) : Prop :=
  match p with PStmt (SExpression e) => empty_first e = false | _ => True end.

(** ** In ASCII *)
Definition letter (c : N) : bool := ((65 <=? c) && (c <=? 90) || (97 <=? c) && (c <=? 122))%N.
Definition digit (c : N) : bool := ((48 <=? c) && (c <=? 57))%N.
Definition all_chars (p : N -> bool) (s : string) : bool :=
  forallb (fun c => p (N_of_ascii c)) (list_ascii_of_string s).
(** A letter or underscore, then letters, digits and underscores; not reserved. *)
Definition ascii_name (s : string) : Prop :=
  match s with
  | EmptyString => False
  | String c r =>
    letter (N_of_ascii c) || (N_of_ascii c =? 95)%N = true /\
    all_chars (fun c => letter c || digit c || (c =? 95)%N) r = true /\
    ~ In s (map fst reserved)
  end.
(** No quote; no carriage return either, which could be one cluster with what follows. *)
Definition ascii_text (s : string) : Prop :=
  all_chars (fun c => (c <? 128) && negb (c =? 34) && negb (c =? 13))%N s = true.
(** The values of number literals: not negative, not NaN. *)
Definition literal (x : f64) : Prop :=
  match x with
  | S754_zero false | S754_infinity false => True
  | S754_finite false p e => binary64 (Zpos p) e /\ (2 ^ 52 <= Zpos p \/ e = -1074)%Z
  | _ => False
  end.
Definition ascii_program (l : list stmt) : Prop :=
  Forall (writable ascii_name ascii_text literal) (program_parts l).

(** The oracle knows ASCII. *)
Definition knows_ascii (U : unicode) : Prop := forall c, (c < 128)%N ->
  u_alphabetic U c = letter c /\ u_alphanumeric U c = letter c || digit c.

(** ** Numbers *)
(** The last [k] decimal digits of [n]. *)
Fixpoint low_digits (k : nat) (n : N) : string :=
  match k with
  | O => ""
  | S k => low_digits k (n / 10) ++ String (ascii_of_N (48 + n mod 10)) ""
  end.
Fixpoint trim (s : string) : string :=
  match s with
  | String "0" (String _ _ as r) => trim r
  | _ => s
  end.
Definition whole_text (n : N) : string := trim (low_digits (S (N.size_nat n)) n).
Fixpoint zeros (k : nat) : string := match k with O => "" | S k => String "0" (zeros k) end.
(** A decimal whose value is exactly the number. *)
Definition number_text (x : f64) : string :=
  match x with
  | S754_finite _ p e =>
    if (0 <=? e)%Z then whole_text (Npos p * 2 ^ Z.to_N e)
    else
      let k := Z.to_nat (- e) in
      let m := (Npos p * 5 ^ N.of_nat k)%N in
      whole_text (m / 10 ^ N.of_nat k) ++ String "." (low_digits k m)
  | S754_infinity _ => String "1" (zeros 309)
  | _ => "0"
  end.

(** ** Tokens *)
Definition signs : list (token_type * string) :=
  [(LeftParen, "("); (LeftParenAbutting, "("); (RightParen, ")"); (LeftBrace, "{"); (RightBrace, "}");
   (LeftBracket, "["); (RightBracket, "]"); (Colon, ":"); (Comma, ","); (Dot, "."); (Minus, "-");
   (Plus, "+"); (Semicolon, ";"); (Slash, "/"); (Star, "*"); (Bang, "!"); (BangEqual, "!=");
   (Equal, "="); (EqualEqual, "=="); (Greater, ">"); (GreaterEqual, ">="); (Less, "<");
   (LessEqual, "<=")].
Definition sign_text (k : token_type) : string :=
  match find (fun p => tt_eqb (fst p) k) (signs ++ map (fun p => (snd p, fst p)) reserved) with
  | Some (_, s) => s
  | None => ""
  end.
Definition spell (t : token) : string :=
  match t_type t with
  | Identifier => t_lexeme t
  | TString => s_quote ++ (match t_string t with Some s => s | None => "" end) ++ s_quote
  | Number => match t_float t with Some x => number_text x | None => "" end
  | k => sign_text k
  end.
Definition abutting (l : list token) : bool :=
  match l with t :: _ => tt_eqb (t_type t) LeftParenAbutting | nil => false end.
(** Tokens separated by spaces, but no space before the parenthesis of a call;
    nothing is indented. *)
Fixpoint write (l : list token) : string :=
  match l with
  | nil => ""
  | t :: r =>
    match t_type t with
    | Eof => ""
    | Terminator => s_nl ++ write r
    | _ => spell t ++ (if abutting r then "" else " ") ++ write r
    end
  end.
Definition program_text (l : list stmt) : string := write (print_program l).

(** The clusters of an ASCII text without carriage returns. *)
Definition chars (s : string) : list string := map (fun c => String c "") (list_ascii_of_string s).

(** ** What cannot be written without indentation *)
(** A statement that starts with an empty map. *)
Definition line_ok (st : stmt) : Prop :=
  match st with SExpression e => empty_first e = false | _ => True end.
(** No statement of a body or of a block does.  The first of two statements of
    a block whose second is a loop may: it can be the initialiser of a [for]. *)
Definition lines_ok (p : part) : Prop :=
  match p with
  | PStmt (SBlock [d; (SWhile _ _ | SWhileIncrement _ _ _)]) => True
  | PStmt (SBlock b) | PFun (FunDef _ b _ _) => Forall line_ok b
  | PStmt (SIf _ t o) => line_ok t /\ match o with Some e => line_ok e | None => True end
  | PStmt (SWhile _ b | SWhileIncrement _ b _) => line_ok b
  | _ => True
  end.
