(** A program entered in the REPL piece by piece, and in a file (src/main.rs and all phases): C89.

    [piece], [together], [answer_out], [answer_err]: SpecTyped.v. *)
From Verif Require Import Base F64 Token Ast Scanner Parser Resolver Show Driver Segment SpecLex SpecScan SpecLayout SpecGrammar SpecConcat
  SpecPlace SpecDriver SpecTyped ScanFinal ParseProps ConcatFinal Typed TestsParser P_Parser P_Driver.
Local Open Scope string_scope.

(** ** C89 *)
Theorem C89_typed : forall U oc F gs ls name, sane U -> Forall2 (piece U oc) gs ls ->
  (exists r rs res, repl U oc F (map Line gs) = Reading r /\ List.length rs = List.length gs /\
     r_out r = "> " ++ cat (map (answer_out F) rs) /\ r_err r = cat (map answer_err rs) /\
     same_program (Done (together rs)) (Done res) /\
     main_file U oc F name (Contents (concat gs)) =
       match res with
       | Ok l => mkProcess (debug_program F l ++ s_nl) "" (Exited 0)
       | Err cs => mkProcess "" (cat (map error_line cs)) (Exited 65)
       end) \/
  (exists p w, repl U oc F (map Line gs) = Finished p /\ p_end p = Aborted w /\
     main_file U oc F name (Contents (concat gs)) = mkProcess "" "" (Aborted w)).
Proof. exact (fun U oc F gs ls name Sn => typed U Sn oc F gs ls name). Qed.
Print Assumptions C89_typed.
Ltac check_piece l :=
  split; [apply check_valid; vm_compute; reflexivity|]; split; [vm_compute; reflexivity|];
  exists (elements (lns l ++ s_nl)), (tokens_of_source (source l)); split; [apply elements_lex|];
  split; [right; exists (removelast (elements (lns l ++ s_nl))); vm_compute; reflexivity|];
  split; [vm_compute; reflexivity|]; split; [vm_compute; reflexivity|]; split;
  [split; [vm_compute; intuition discriminate|
           intros (t & c & r & E & _ & K); vm_compute in E; injection E as <- <- <-; discriminate K]|
   right; exists (removelast (removelast (tokens_of_source (source l))));
   eexists; eexists; split; [vm_compute; reflexivity|reflexivity]].
(** Three lines with a variable that is used before it is declared; then a line that is rejected. *)
Example C89_example :
  (exists ls, Forall2 (piece sample_unicode true) (map source [["print a"]; ["var a = b"]; ["b = a(1)"]]) ls /\
     map (@List.length stmt) ls = [1; 1; 1]) /\
  p_end (run_file ["print a"; "var a = b"; "b = a(1)"]) = Exited 0 /\
  (exists ls, Forall2 (piece sample_unicode true) (map source [["print a"]; ["return a"]; ["var c = this.a"]]) ls) /\
  run_file ["print a"; "return a"; "var c = this.a"] =
    mkProcess "" ("[line 2:1] Error at 'return': Cannot return from top-level code." ++ s_nl ++
                  "[line 3:9] Error at 'this': Cannot use 'this' outside of a class." ++ s_nl) (Exited 65) /\
  match session ["print a"; "return a"; "var c = this.a"] with
  | Reading r => r_err r =
      "[line 1:1] Error at 'return': Cannot return from top-level code." ++ s_nl ++
      "[line 1:9] Error at 'this': Cannot use 'this' outside of a class." ++ s_nl
  | Finished _ => False
  end.
Proof.
  split; [|split; [vm_compute; reflexivity|split; [|split; vm_compute; reflexivity]]].
  - exists (map program_of [["print a"]; ["var a = b"]; ["b = a(1)"]]). split; [|vm_compute; reflexivity].
    constructor; [check_piece ["print a"]|]. constructor; [check_piece ["var a = b"]|]. constructor; [check_piece ["b = a(1)"]|]. constructor.
  - exists (map program_of [["print a"]; ["return a"]; ["var c = this.a"]]).
    constructor; [check_piece ["print a"]|]. constructor; [check_piece ["return a"]|]. constructor; [check_piece ["var c = this.a"]|]. constructor.
Qed.
(** Two lines that are a map each, but one map in a file. *)
Theorem C89_any_lines_refuted : exists g g' l l' m,
  valid_source g /\ valid_source g' /\ parse sample_unicode true g = Done (Ok l) /\ parse sample_unicode true g' = Done (Ok l') /\
  parse sample_unicode true (g ++ g')%list = Done (Ok m) /\ map unplaced m <> map unplaced (l ++ l').
Proof.
  exists (source ["a: 1"]), (source ["b: 2"]). eexists. eexists. eexists.
  split; [apply check_valid; vm_compute; reflexivity|]. split; [apply check_valid; vm_compute; reflexivity|].
  split; [vm_compute; reflexivity|]. split; [vm_compute; reflexivity|]. split; [vm_compute; reflexivity|]. vm_compute. discriminate.
Qed.
Print Assumptions C89_any_lines_refuted.
