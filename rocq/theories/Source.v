(** * Where the program comes from *)

(** The part of pip.pip (pip.py:207-243) that finds the text of the program:
    given as a value ([code]), by -e, by -f, by -i, or in the file that the
    first argument names.  argparse allows at most one of -e, -f and -i.  Not
    modelled: the prompts of an interactive start (pip.py:72-76, 209-211,
    226-227, 313-314), which a call with [code] or [argv] does not have, and -v. *)
From Coq Require Import String List NArith.
From Verif Require Import PyStr Heap Exec Main.
Import ListNotations.
Local Open Scope list_scope.

(** The options -e, -f and -i (pip.py:117-126). *)
Inductive source : Type :=
| SNone
| SExecute (text : str)
| SFile (name : str)
| SStdin.

Inductive ran : Type :=
| Ran (r : outcome unit)
| Usage              (* the hint at -h, pip.py:216 *)
| NoFile.            (* FatalError, pip.py:233 *)

(** pip.py:234-243: [input() + "\n"] for all lines, then [program[:-1]] if there
    was a line. *)
Definition read_program (lines : list str) : str :=
  let program := fold_left (fun program l => program ++ (l ++ [10%N])) lines [] in
  match program with [] => [] | _ => removelast program end.

Definition with_args (o : options) (args : list str) : options :=
  mkopt (op_debug o) (op_warnings o) (op_repr o) (op_reprlines o) (op_space o) (op_spacelines o)
        (op_newline o) (op_lines o) (op_readlines o) (op_exec_args o) args.

(** [files] stands for the texts that [open(name).read()] returns. *)
Definition pip_command (n : nat) (code : option str) (src : source) (o : options)
           (files : str -> option str) (input : world) : ran :=
  let from_file name o :=
    match files name with
    | Some program => Ran (pip_main n o input program)
    | None => NoFile
    end in
  match code with
  | Some program => Ran (pip_main n o input program)
  | None =>
    match src with
    | SExecute program => Ran (pip_main n o input program)
    | SFile name => from_file name o
    | SStdin => Ran (pip_main n o (mkworld [] (w_rand input)) (read_program (w_in input)))
    | SNone =>
      match op_args o with
      | name :: args => from_file name (with_args o args)
      | [] => Usage
      end
    end
  end.
