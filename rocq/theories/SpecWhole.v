(** The whole front end, from text to what is written: the specifications of
    scanning, parsing, resolving and printing one after the other.  Of the
    models only data types are used. *)
From Verif Require Import Base F64 Token Ast Scanner Show Driver SpecLex SpecLayout SpecGrammar SpecReject
  SpecResolve SpecCheck SpecDriver SpecData.
Local Open Scope string_scope.

(** What becomes of a text. *)
Inductive fate : Type :=
| Endless                        (* scanning never ends *)
| Mistaken (cs : list cause)
| Deep                           (* too many scopes in one another *)
| Understood (l : list stmt).

(** [means U trailing w gs f w']: the text [gs], read when the global scope is
    as in [w], has the fate [f] and leaves the global scope as in [w'].
    [trailing]: the last line end may be missing (a line of the REPL). *)
Inductive means (U : unicode) (trailing : bool) (w : world) (gs : list string)
  : fate -> world -> Prop :=
| MEndless es :
    lexes U gs es -> scan_spec gs es = None -> means U trailing w gs Endless w
| MScan es cs :
    lexes U gs es -> scan_spec gs es = Some (Err cs) -> means U trailing w gs (Mistaken cs) w
| MParse es toks cs :
    lexes U gs es -> scan_spec gs es = Some (Ok toks) ->
    program_errors trailing toks cs -> cs <> nil ->
    means U trailing w gs (Mistaken cs) w
| MResolve es toks eof l cs w' :
    lexes U gs es -> scan_spec gs es = Some (Ok toks) ->
    t_type eof = Eof -> derives trailing false Program toks (VSs l) [eof] ->
    program_causes w l = Some (cs, w') -> cs <> nil ->
    means U trailing w gs (Mistaken cs) w'
| MDeep es toks eof l :
    lexes U gs es -> scan_spec gs es = Some (Ok toks) ->
    t_type eof = Eof -> derives trailing false Program toks (VSs l) [eof] ->
    program_causes w l = None ->
    means U trailing w gs Deep w
| MTree es toks eof l w' l' :
    lexes U gs es -> scan_spec gs es = Some (Ok toks) ->
    t_type eof = Eof -> derives trailing false Program toks (VSs l) [eof] ->
    program_causes w l = Some (nil, w') ->
    map erase l' = map erase l ->
    Forall (addressed (w_table w')) (program_nodes (top new_world) l') ->
    means U trailing w gs (Understood l') w'.

(** ** The command line with a file *)
Definition file_ends (F : formats) (f : fate) (p : process) : Prop :=
  match f with
  | Endless => p = mkProcess "" "" Hung
  | Mistaken cs => p = mkProcess "" (String.concat "" (map error_line cs)) (Exited 65)
  | Deep => exists why, p = mkProcess "" "" (Aborted why)
  | Understood l => p = mkProcess (debug_text F l ++ s_nl) "" (Exited 0)
  end.

(** ** The WebAssembly entry point *)
Definition call_ends (F : formats) (f : fate) (r : outcome (result js string)) : Prop :=
  match f with
  | Endless => r = Diverged
  | Mistaken cs => r = Done (Err (String.concat "" (map (error_paragraph F) cs)))
  | Deep => exists why, r = Panicked why
  | Understood l => r = Done (Ok (js_value (program_data l)))
  end.

(** ** The demo page: what it shows *)
Definition page_ends (F : formats) (f : fate) (r : outcome string) : Prop :=
  match f with
  | Endless => r = Diverged
  | Mistaken cs => r = Done (String.concat "" (map (error_paragraph F) cs))
  | Deep => exists why, r = Panicked why
  | Understood l => exists t, page_text F (js_value (program_data l)) t /\ r = Done t
  end.

(** ** The REPL *)
(** After these lines the REPL is waiting for the next, has written [out] and
    [err], and its global scope is as in [w]. *)
Inductive dialogue (U : unicode) (F : formats) : list (list string) -> string -> string -> world -> Prop :=
| DStart : dialogue U F nil "> " "" new_world
| DUnderstood l out err w gs t w' :
    dialogue U F l out err w -> means U true w gs (Understood t) w' ->
    dialogue U F (l ++ [gs]) (out ++ (debug_text F t ++ s_nl) ++ "> ") err w'
| DMistaken l out err w gs cs w' :
    dialogue U F l out err w -> means U true w gs (Mistaken cs) w' ->
    dialogue U F (l ++ [gs]) (out ++ "> ") (err ++ String.concat "" (map error_line cs)) w'.
(** What one more line does. *)
Definition line_ends (out err : string) (f : fate) (st : repl_state) : Prop :=
  match f with
  | Endless => st = Finished (mkProcess out err Hung)
  | Deep => exists why, st = Finished (mkProcess out err (Aborted why))
  | Mistaken _ | Understood _ => exists r, st = Reading r
  end.
