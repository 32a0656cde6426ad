(** * Specification of REPL sessions (C70) *)

From Coq Require Import String List NArith ZArith Bool Arith.
From Verif Require Import PyStr Tokens OpTable Scan Parse PTypes Heap Exec Main SpecScan SpecMain.
Import ListNotations.
Local Open Scope string_scope.
Local Open Scope list_scope.

(** ** The commands of the REPL *)

(** The words of a line, separated by white space. *)
Inductive worded : str -> list str -> Prop :=
| wd_nil b : blank b -> worded b []
| wd_cons b w r ws : blank b -> w <> [] -> Forall (fun c => is_space c = false) w ->
    (r = [] \/ starts_blank r) -> worded r ws -> worded (b ++ w ++ r) (w :: ws).

(** [w] is [t] in letters of any case. *)
Definition spelled (w : str) (t : str) : Prop :=
  Forall2 (fun c d => c = d /\ is_upper c = false \/ is_upper c = true /\ d = (c + 32)%N) w t.
(** [w] is the beginning of [full]. *)
Definition abbreviates (w : str) (full : string) : Prop :=
  exists t more, spelled w t /\ s_ full = t ++ more.

(** The command on a line after its semicolon. *)
Inductive named : str -> repl_command -> Prop :=
| nm_quit l w ws : worded l (w :: ws) -> abbreviates w "quit" -> named l CmdQuit
| nm_exit l w ws : worded l (w :: ws) -> abbreviates w "exit" -> named l CmdQuit
| nm_x l w ws : worded l (w :: ws) -> spelled w (s_ "x") -> named l CmdQuit
| nm_help l w ws : worded l (w :: ws) -> abbreviates w "help" -> named l CmdHelp
| nm_toggle l w : worded l [w] -> abbreviates w "warnings" -> named l (CmdWarnings None)
| nm_on l w a : worded l [w; a] -> abbreviates w "warnings" -> spelled a (s_ "on") ->
    named l (CmdWarnings (Some true))
| nm_off l w a : worded l [w; a] -> abbreviates w "warnings" -> spelled a (s_ "off") ->
    named l (CmdWarnings (Some false)).

(** The state with warnings switched on or off. *)
Definition with_warnings (b : bool) (s : state) : state :=
  mkst (st_heap s) (st_vars s) (st_scopes s) (st_depth s) (st_args s) (st_main s)
       (st_in s) (st_out s) (st_diag s) b (st_fmt s) (st_tao s) (st_swallowed s) (st_rand s).

(** What a command does, and whether the session goes on. *)
Inductive obeys : str -> state -> bool -> state -> Prop :=
| ob_quit l s : named l CmdQuit -> obeys l s false (printed (s_ "Bye!" ++ [10%N]) s)
| ob_help l s : named l CmdHelp -> obeys l s true (printed help_text s)
| ob_set l s b : named l (CmdWarnings (Some b)) -> obeys l s true (with_warnings b s)
| ob_toggle l s : named l (CmdWarnings None) -> obeys l s true (with_warnings (negb (st_warn s)) s)
| ob_other l s : (forall c, ~ named l c) -> obeys l s true s.

(** ** Sessions *)

Definition bad (code : str) : Prop :=
  exists ts b, scan code = ScanOk ts b /\ parse_program (V := hval) ts = PErr BadSyntax.

(** The REPL needs at least the lines [lines] of its input. *)
Definition asks (s : state) (lines rest : list str) : Prop :=
  lines <> [] /\ st_in s = lines ++ rest
  /\ forall j, 0 < j < length lines -> incomplete (joined_lines (firstn j lines)).
(** The state after reading them. *)
Definition took (lines rest : list str) (s : state) : state :=
  set_in rest (printed (s_ ">> " ++ concat (repeat (s_ ".. ") (length lines - 1))) s).

(** [talks n s r]: the session that starts in [s] ends with [r]: [Ok true s'] is
    the end by ;quit and [Ok false s'] the end of the input, in the state [s'];
    other exceptions than the caught ones leave the session at once. *)
Inductive talks (n : nat) : state -> outcome bool -> Prop :=
| tk_end s : st_in s = [] -> talks n s (Ok false (printed (s_ ">> ") s))
| tk_open s lines : asks s lines [] -> incomplete (joined_lines lines) ->
    talks n s (Ok false (printed (s_ ".. ") (took lines [] s)))
| tk_bad s lines rest r : asks s lines rest -> bad (joined_lines lines) ->
    talks n (took lines rest s) r -> talks n s r
| tk_quit s l rest s1 : st_in s = (59%N :: l) :: rest ->
    obeys l (took [l] rest s) false s1 -> talks n s (Ok true s1)
| tk_command s l rest s1 r : st_in s = (59%N :: l) :: rest ->
    obeys l (took [l] rest s) true s1 -> talks n s1 r -> talks n s r
| tk_code s lines rest sts s1 r : asks s lines rest -> complete (joined_lines lines) sts ->
    (forall l ls, lines <> (59%N :: l) :: ls) ->
    repl_statements n sts (took lines rest s) = Ok tt s1 ->
    talks n s1 r -> talks n s r
| tk_error s lines rest sts e s1 : asks s lines rest -> complete (joined_lines lines) sts ->
    (forall l ls, lines <> (59%N :: l) :: ls) ->
    repl_statements n sts (took lines rest s) = Err e s1 -> talks n s (Err e s1)
| tk_diverges s lines rest sts : asks s lines rest -> complete (joined_lines lines) sts ->
    (forall l ls, lines <> (59%N :: l) :: ls) ->
    repl_statements n sts (took lines rest s) = Fuel -> talks n s Fuel.
