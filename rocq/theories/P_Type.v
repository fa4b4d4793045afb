(** Which trees are the trees of texts (src/scanner.rs, src/parser.rs): C101.

    [settled] (SpecType.v) says which statements may stand where, [full_text]
    writes a tree as text, with indentation where nothing else will do, and
    [text_leaves] says that names, strings and numbers can be written. *)
From Verif Require Import Base F64 Token Ast Scanner Parser Segment SpecLex SpecTree SpecPrint SpecPlace SpecWrite SpecParse SpecType
  ScanFinal ParseFinal WriteFinal TypeFinal TestsParser P_Errors P_Parser P_Driver.
Local Open Scope string_scope.
Local Open Scope list_scope.

(** ** C101 *)
Theorem C101_exact : forall U oc l, knows_ascii U -> indentable l ->
  (exists gs l', valid_source gs /\ parse U oc gs = Done (Ok l') /\ map unplaced l' = map unplaced l) <->
  well_formed l /\ settled l /\ text_leaves U l.
Proof. exact (fun U oc l K => text_exact U K oc l). Qed.
Print Assumptions C101_exact.
(** Whatever the depth, nothing else comes out of a text. *)
Theorem C101_only : forall U oc gs l, knows_ascii U -> valid_source gs -> parse U oc gs = Done (Ok l) ->
  well_formed l /\ settled l /\ text_leaves U l.
Proof. exact (fun U oc gs l K => text_tree U K oc gs l). Qed.
Print Assumptions C101_only.
(** A text for each of them, in ASCII. *)
Theorem C101_text : forall U oc l, knows_ascii U -> well_formed l -> settled l -> ascii_leaves l -> indentable l ->
  exists l', parse U oc (chars (full_text l)) = Done (Ok l') /\ map unplaced l' = map unplaced l.
Proof. exact (fun U oc l K => full_text_parses U K false oc l). Qed.
Print Assumptions C101_text.
Theorem C101_text_repl : forall U oc l, knows_ascii U -> well_formed l -> settled l -> ascii_leaves l -> indentable l ->
  exists l', parse_repl_line U oc (chars (full_text l)) = Done (Ok l') /\ map unplaced l' = map unplaced l.
Proof. exact (fun U oc l K => full_text_parses U K true oc l). Qed.
Print Assumptions C101_text_repl.
Theorem C101_injective : forall l l', well_formed l -> settled l -> ascii_leaves l -> indentable l ->
  well_formed l' -> settled l' -> ascii_leaves l' -> indentable l' ->
  full_text l = full_text l' -> map unplaced l = map unplaced l'.
Proof. exact full_text_injective. Qed.
Print Assumptions C101_injective.
(** No line ends directly behind an Outdent. *)
Theorem C101_order : forall U gs p o t r, sane U -> valid_source gs -> scan_tokens U gs = Done (Ok (p ++ o :: t :: r)) ->
  t_type o = Outdent -> t_type t <> Terminator.
Proof. exact outdent_order. Qed.
Print Assumptions C101_order.

(** Two assignments to properties of empty maps, one of them as a branch; an
    empty map as the initialiser of a [for]. *)
Definition deep_lines : list string :=
  ["  {}.x"; "= fun () {"; "while (a) \"; "//"; "  {}[b]"; "= d"; "}"; "for ({}"; "c; ) print a"; ""].
Example C101_example :
  knows_ascii sample_unicode /\ well_formed (program_of deep_lines) /\ settled (program_of deep_lines) /\
  ascii_leaves (program_of deep_lines) /\ indentable (program_of deep_lines) /\
  List.length (program_parts (program_of deep_lines)) = 19 /\
  chars (full_text (program_of deep_lines)) =
    source [" { } . x "; "= fun ( ) { while ( a ) \"; "//"; " { } [ b ] "; "= d "; "} "; "for ( { } "; "c ; ) print a "].
Proof.
  parts; [exact sample_knows_ascii|apply (accepted_well_formed sample_unicode sample_sane true (source deep_lines));
    [apply check_valid; vm_compute; reflexivity|left; vm_compute; reflexivity]
    |apply settledb; vm_compute; reflexivity|apply ascii_leavesb; vm_compute; reflexivity
    |apply indentableb; vm_compute; reflexivity|vm_compute; reflexivity|vm_compute; reflexivity].
Qed.
(** A statement that is an empty map is well formed, but no text has it; nor one that reads from an empty map. *)
Example C101_example_no_text :
  well_formed [SExpression (EGet (EMap nil) "x" no_place)] /\
  forall oc gs l, valid_source gs -> parse sample_unicode oc gs = Done (Ok l) ->
    map unplaced l <> [SExpression (EGet (EMap nil) "x" no_place)].
Proof.
  split.
  - split; [|reflexivity]. repeat constructor; cbn; auto.
  - intros oc gs l V P E. destruct (C101_only _ _ _ _ sample_knows_ascii V P) as (_ & [F _] & _).
    destruct l as [|[] []]; try discriminate E. inversion F as [|? ? X _]. destruct e; try discriminate E.
    injection E as E _. destruct e; try discriminate E. destruct m; [discriminate X|discriminate E].
Qed.
(** The tokens of an indented line and the next one. *)
Example C101_example_order :
  match scan_tokens sample_unicode (source ["  {}.x"; "= 3"; ""]) with
  | Done (Ok toks) => map t_type toks
  | _ => nil
  end = [Indent; LeftBrace; RightBrace; Dot; Identifier; Terminator; Outdent; Equal; Number; Terminator; Eof].
Proof. vm_compute. reflexivity. Qed.
