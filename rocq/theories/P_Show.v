(** How results are shown (src/ast.rs [Debug] and [Serialize] impls,
    src/main.rs:108, src/wasm.rs:19, index.html): C70 and C71; and C49 for files
    that cannot be read.

    A syntax tree is data made of numbers, strings, lists, variants, structs;
    the specifications say how data in general are shown (SpecData.v). *)
From Verif Require Import Base F64 Token Ast Scanner Parser Resolver Show Driver Segment SpecLex SpecDriver
  SpecCheck SpecWhole SpecData DriverFacts DataFacts Whole ScanFinal TestsParser P_Resolver P_Driver.
Local Open Scope string_scope.

(** ** C70 *)
Theorem C70_debug : forall F l, debug_program F l = text_of_lines "    " (debug_lines F (program_data l)).
Proof. exact debug_program_data. Qed.
Print Assumptions C70_debug.
Theorem C70_javascript : forall l, JArray (map jstmt l) = js_value (program_data l).
Proof. exact js_program_data. Qed.
Print Assumptions C70_javascript.
Theorem C70_page : forall F v,
  (exists l, page F v l) /\ (forall l, page F v l -> display F v = text_of_lines "  " l).
Proof. exact (fun F v => conj (page_exists F v) (page_display F v)). Qed.
Print Assumptions C70_page.
(** What the page shows for a text. *)
Theorem C70_on_change : forall U oc F gs f w, sane U -> valid_source gs ->
  means U false new_world gs f w -> page_ends F f (on_change U oc F gs).
Proof. exact (fun U oc F gs f w Sn => page_whole U Sn oc F gs f w). Qed.
Print Assumptions C70_on_change.
Example C70_example :
  debug_lines sample_formats (program_data (tree_of ["print [a]"])) =
    [(0, "["); (1, "Print("); (2, "LiteralArray("); (3, "["); (4, "Variable("); (5, """a"",");
     (5, "Cell {"); (6, "value: VarLoc {"); (7, "distance: 0,"); (7, "index: 0,"); (6, "},"); (5, "},");
     (5, "SourceLoc {"); (6, "line: 1,"); (6, "column: 8,"); (5, "},"); (4, "),"); (3, "],"); (2, "),");
     (1, "),"); (0, "]")] /\
  js_value (program_data (tree_of ["while (a)"; "  break"])) =
    JArray [JObject [("type", JString "While");
      ("args", JArray
        [JObject [("type", JString "Variable");
           ("args", JArray [JString "a"; JObject [("distance", JInt 0); ("index", JInt 0)];
                            JObject [("line", JInt 1); ("column", JInt 8)]])];
         JObject [("type", JString "Block");
           ("args", JArray [JObject [("type", JString "Break");
                                     ("args", JObject [("line", JInt 2); ("column", JInt 3)])]])]])]].
Proof. split; vm_compute; reflexivity. Qed.

(** ** C71 *)
Theorem C71_string : forall s t, json_string s t <-> t = escape_string s.
Proof. exact json_string_iff. Qed.
Print Assumptions C71_string.
Theorem C71_key : forall k t, key_text k t <-> t = escape_map_key k.
Proof. exact key_text_iff. Qed.
Print Assumptions C71_key.
Example C71_example :
  map escape_map_key ["a1"; "1a"; "if"; "iff"; "_"; ""; "a b"; "say " ++ s_quote ++ s_nl] =
    ["a1"; """1a"""; """if"""; "iff"; "_"; """"""; """a b""";
     s_quote ++ "say " ++ s_backslash ++ s_quote ++ s_backslash ++ "n" ++ s_quote] /\
  escape_string (String (ascii_of_nat 27) "") = s_quote ++ s_backslash ++ "u001b" ++ s_quote.
Proof. split; vm_compute; reflexivity. Qed.

(** ** C49 *)
(** A file that cannot be read: nothing is written and the message of the panic
    names the file. *)
Theorem C49_no_file : forall U oc F name,
  main_file U oc F name NoFile = mkProcess "" "" (Aborted ("source file not found: " ++ name)) /\
  main_file U oc F name Unreadable = mkProcess "" "" (Aborted ("unable to read file: " ++ name)).
Proof. exact (fun U oc F name => conj eq_refl eq_refl). Qed.
Print Assumptions C49_no_file.
Example C49_no_file_example :
  main_file sample_unicode true sample_formats "b.ws" NoFile = mkProcess "" "" (Aborted "source file not found: b.ws").
Proof. reflexivity. Qed.
