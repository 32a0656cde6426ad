(** * Property C104: a program does the same wherever its text comes from *)

From Coq Require Import String List NArith Bool.
From Verif Require Import PyStr PTypes Heap Exec Main SpecMain Source SpecSource.
From Verif Require SourceProof.
Import ListNotations.
Local Open Scope string_scope.
Local Open Scope list_scope.

(** -i: the lines of standard input, with newlines between them, are the
    program, and nothing is left for it to read. *)
Theorem C104_stdin : forall n o files input,
  pip_command n None SStdin o files input
  = pip_command n None (SExecute (program_text (w_in input))) o files (mkworld [] (w_rand input)).
Proof. exact SourceProof.stdin_program. Qed.
Print Assumptions C104_stdin.

(** Every program can be given in this way, whatever newlines are in it. *)
Theorem C104_any : forall t, exists lines, Forall is_line lines /\ program_text lines = t.
Proof. exact SourceProof.any_text. Qed.
Print Assumptions C104_any.

(** -i together with -r: there are no arguments. *)
Theorem C104_readlines : forall n o files input sts,
  op_readlines o = true -> complete (program_text (w_in input)) sts ->
  pip_command n None SStdin o files input
  = Ran (pip_main n (given o []) (mkworld [] (w_rand input)) (program_text (w_in input))).
Proof. exact SourceProof.stdin_readlines. Qed.
Print Assumptions C104_readlines.

(** A file, named by -f or by the first argument, which the program does not
    see, or a text passed to [pip], is run like the same text with -e. *)
Theorem C104_file : forall n o files input name args text,
  files name = Some text ->
  pip_command n None (SFile name) o files input = pip_command n None (SExecute text) o files input
  /\ pip_command n None SNone (with_args o (name :: args)) files input
     = pip_command n None (SExecute text) (with_args o args) files input
  /\ forall src, pip_command n (Some text) src o files input = pip_command n None (SExecute text) o files input.
Proof. intros n o files input name args text E. cbn. rewrite E. auto. Qed.
Print Assumptions C104_file.

Definition output_with (src : source) (args input : list string) : option str :=
  match pip_command 60 None src (mkopt false false true false false false false false false false (map s_ args))
          (fun name => if str_eqb name (s_ "x.pip") then Some (s_ "[a+b" ++ [10%N] ++ s_ "q]") else None)
          (Exec.lines (map s_ input)) with
  | Ran (Ok _ s) => Some (st_out s)
  | _ => None
  end.
Example C104_ex :
  output_with SStdin ["2"; "3"] ["[a+b"; "q]"] = Some (s_ "[5;()]" ++ [10%N])
  /\ output_with SNone ["x.pip"; "2"; "3"] ["7"] = Some (s_ "[5;7]" ++ [10%N])
  /\ output_with (SFile (s_ "x.pip")) ["2"; "3"] ["7"] = Some (s_ "[5;7]" ++ [10%N])
  /\ (exists sts, complete (program_text [s_ "[a+b"; s_ "q]"]) sts).
Proof.
  split; [vm_compute; reflexivity|]. split; [vm_compute; reflexivity|]. split; [vm_compute; reflexivity|].
  do 4 eexists. split; vm_compute; reflexivity.
Qed.
