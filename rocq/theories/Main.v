(** * The main program and the read-eval-print loop (pip.py)

    Not modelled: argparse itself (an [options] record stands for its result),
    the messages printed with -v, -V and -h and on standard error, and keyboard
    interrupts.  Where the text of the program comes from is in Source.v. *)

From Coq Require Import String List NArith ZArith Bool Arith.
From Verif Require Import PyStr PyNum Tokens OpFun OpTable Scan Parse PTypes Ops Apply Heap Exec.
Import ListNotations.
Local Open Scope list_scope.

(** ** Splitting an argument line (pip.py:87-109)

    [quote] is the open quote, [buffer] the argument read so far.  The TypeError
    of [buffer += char] inside quotes (pip.py:102) for a buffer that is None does
    not occur: opening a quote sets the buffer, and only a space outside quotes
    makes it None. *)
Definition is_quote (c : char) : bool := N.eqb c c_squote || N.eqb c c_dquote.
Definition or_empty (b : option str) : str := match b with Some t => t | None => [] end.
Fixpoint split_loop (quote : option char) (buffer : option str) (line : str) : list str :=
  match line with
  | [] => []
  | c :: line' =>
    if is_quote c
    then match quote with
         | None => split_loop (Some c) (Some (or_empty buffer)) line'
         | Some q => if N.eqb q c then split_loop None buffer line'
                     else split_loop quote (Some (or_empty buffer ++ [c])) line'
         end
    else if N.eqb c c_space && match quote with None => true | Some _ => false end
    then match buffer with
         | Some t => t :: split_loop None None line'
         | None => split_loop None None line'
         end
    else split_loop quote (Some (or_empty buffer ++ [c])) line'
  end.
Definition split_args (line : str) : list str := split_loop None None (line ++ [c_space]).

(** ** Options (pip.py:110-203) *)

Record options : Type := mkopt
  { op_debug : bool; op_warnings : bool;
    op_repr : bool; op_reprlines : bool; op_space : bool; op_spacelines : bool;
    op_newline : bool; op_lines : bool;
    op_readlines : bool; op_exec_args : bool; op_args : list str }.

Definition list_format (o : options) : ofmt :=
  if op_repr o || op_debug o then Fmt_p
  else if op_reprlines o then Fmt_P
  else if op_space o then Fmt_s
  else if op_spacelines o then Fmt_S
  else if op_newline o then Fmt_n
  else if op_lines o then Fmt_l
  else FmtNone.
Definition warnings_on (o : options) : bool := op_warnings o || op_debug o.

(** ** Running a program (pip.py:249-325) *)

(** Reading all lines of standard input (pip.py:268-274). *)
Definition read_all : M (list str) := fun s => Ok (st_in s) (set_in [] s).

(** One argument as code (pip.py:280-309).  The value [state.evaluate] returns
    may be an Lval, which is then used as an argument as it is; that case is
    not modelled. *)
Definition exec_arg (n : nat) (arg : str) : M hval :=
  match scan arg with
  | ScanOk ts _ =>
    match parse_program (V := hval) ts with
    | POk (t :: _) _ =>
      x <- i_eval (run n) t;;
      match x with XR v => mret v | _ => fail (EPy Unmodelled) end
    | POk [] _ | PErr PIndexError => fail (EPy IndexError)
    | PErr _ => fail EFatal
    end
  | _ => fail EFatal
  end.

Definition pip_main (n : nat) (o : options) (input : world) (program : str) : outcome unit :=
  let s0 := blank_state (list_format o) (warnings_on o) input None in
  match scan program with
  | ScanOk ts _ =>
    match parse_program (V := hval) ts with
    | POk sts _ =>
      (wipe_globals;;
       raw <- (if op_readlines o then read_all else mret (op_args o));;
       args <- (if op_exec_args o then mmap (exec_arg n) raw
                else fresh_all (map PScal raw));;
       exec_program n sts args) s0
    | PErr PIndexError => Err (EPy IndexError) s0
    | PErr _ => Err EFatal s0
    end
  | _ => Err EFatal s0
  end.

(** ** The read-eval-print loop (pip.py:328-395) *)

(** [REPL_HELP_TEXT] as printed (pip.py:15-38). *)
Definition help_text : str :=
  concat (map (fun l => s_ l ++ [c_nl])
  ["";
   "Enter Pip statements at the prompt. Entering an expression displays";
   "its value. Incomplete statements/expressions can be continued on";
   "subsequent lines. $_, $__, and $___ store the values of the last";
   "three expressions.";
   "";
   ">> Fi,3Pi";
   "0";
   "1";
   "2";
   ">> 6*7";
   "42";
   ">> [$_";
   "..  '!]";
   "[42;""!""]";
   "";
   "REPL commands (abbreviated versions like ;h or ;he work too):";
   "";
   ";warnings   Toggle display of warning messages (can also be invoked";
   "            as ;warnings off or ;warnings on)";
   ";quit       Quit the REPL";
   ";exit       Identical to ;quit";
   ";help       Display this help message";
   ""]%string).

Inductive reading : Type :=
| RCode (code : str) (sts : list (tree hval))
| RBad                                        (* BadSyntax *)
| RError (e : exn)                            (* another exception *)
| REnd.                                       (* EOFError *)

(** Reading more lines until the code is complete (pip.py:337-352): what was
    read, the rest of the lines and the number of lines taken. *)
Fixpoint read_more (lines : list str) (code : str) : reading * list str * nat :=
  let more :=
    match lines with
    | [] => (REnd, [], 0)
    | l :: rest =>
      let '(r, rest', k) := read_more rest (code ++ l ++ [c_nl]) in (r, rest', S k)
    end in
  match scan code with
  | ScanOk ts _ =>
    match parse_program (V := hval) ts with
    | POk sts _ => (RCode code sts, lines, 0)
    | PErr IncompleteSyntax => more
    | PErr BadSyntax => (RBad, lines, 0)
    | PErr _ => (RError IndexError, lines, 0)
    end
  | ScanIncomplete => more
  | ScanFuel => (REnd, lines, 0)
  end.

(** [input(">> ")] and the lines after it, with the prompts written to
    standard output. *)
Definition read_code : M reading :=
  fun s =>
    match st_in s with
    | [] => Ok REnd (set_out (st_out s ++ s_ ">> ") s)
    | l :: rest =>
      let '(r, rest', k) := read_more rest (l ++ [c_nl]) in
      let ends := match r with REnd => s_ ".. " | _ => [] end in
      Ok r (set_in rest' (set_out (st_out s ++ s_ ">> " ++ concat (repeat (s_ ".. ") k) ++ ends) s))
    end.

(** [str.lower] as far as the names of the commands and their arguments
    depend on it: no other character becomes one of their letters. *)
Definition lower_char (c : char) : char := if is_upper c then (c + 32)%N else c.

(** [str.split()]. *)
Fixpoint words (cur : str) (s : str) : list str :=
  match s with
  | [] => match cur with [] => [] | _ => [cur] end
  | c :: s' =>
    if is_space c
    then match cur with [] => words [] s' | _ => cur :: words [] s' end
    else words (cur ++ [c]) s'
  end.

Inductive repl_command : Set := CmdQuit | CmdHelp | CmdWarnings (on : option bool) | CmdNone.
(** [;warnings] with other arguments does nothing, like an unknown command
    (pip.py:354-380). *)
Definition command_of (code : str) : repl_command :=
  match code with
  | 59%N :: code' =>
    match words [] (map lower_char code') with
    | [] => CmdNone
    | c :: args =>
      if startswith c (s_ "quit") || startswith c (s_ "exit") || str_eqb c (s_ "x")
      then CmdQuit
      else if startswith c (s_ "help") then CmdHelp
      else if startswith c (s_ "warnings")
      then match args with
           | [] => CmdWarnings None
           | [a] => if str_eqb a (s_ "on") then CmdWarnings (Some true)
                    else if str_eqb a (s_ "off") then CmdWarnings (Some false)
                    else CmdNone
           | _ => CmdNone
           end
      else CmdNone
    end
  | _ => CmdNone
  end.

Definition set_warnings (on : option bool) : M unit :=
  fun s => Ok tt (mkst (st_heap s) (st_vars s) (st_scopes s) (st_depth s) (st_args s) (st_main s)
                       (st_in s) (st_out s) (st_diag s)
                       (match on with Some b => b | None => negb (st_warn s) end)
                       (st_fmt s) (st_tao s) (st_swallowed s) (st_rand s)).

(** One statement: a value is printed with REPR and kept in the history
    variables (pip.py:382-386). *)
Definition repl_statement (n : nat) (t : tree hval) : M unit :=
  r <- i_stmt (run n) t;;
  match r with
  | Some v =>
    p <- dread v;;
    text <- fresh (PScal (p_repr p));;
    PRINT text;;
    update_history v
  | None => mret tt
  end.
(** All statements; FatalError and RuntimeError end them, and are reported
    (pip.py:381-392). *)
Definition repl_statements (n : nat) (sts : list (tree hval)) : M unit :=
  fun s => match mfor (repl_statement n) sts s with
           | Err EFatal s' | Err (EPy RecursionError) s' => Ok tt s'
           | r => r
           end.

(** The outer loop; true if it was left with ;quit.  At the end of the input
    EOFError escapes.  Every round reads a line, so that [k] greater than the
    number of lines is enough. *)
Fixpoint repl_loop (n k : nat) : M bool :=
  match k with
  | O => diverge
  | S k' =>
    r <- read_code;;
    match r with
    | REnd => mret false
    | RBad => repl_loop n k'
    | RError e => fail (EPy e)
    | RCode code sts =>
      match command_of code with
      | CmdQuit => put_out (s_ "Bye!" ++ [c_nl]);; mret true
      | c =>
        (match c with
         | CmdWarnings on => set_warnings on
         | CmdHelp => put_out help_text
         | _ => mret tt
         end);;
        repl_statements n sts;;
        repl_loop n k'
      end
    end
  end.
Definition repl (n : nat) (o : options) (input : world) : outcome bool :=
  (wipe_globals;;
   put_out (s_ "Pip 1.2.0" ++ [c_nl] ++ s_ "Type ;help for more information." ++ [c_nl]);;
   repl_loop n (S (length (w_in input))))
    (blank_state (list_format o) (warnings_on o) input None).
