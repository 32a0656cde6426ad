(** * Property C70: sessions of the REPL *)

From Coq Require Import String List NArith ZArith Bool Arith Lia.
From Verif Require Import PyStr PyNum Tokens OpTable Scan Parse PTypes Heap Exec Main SpecScan SpecMain SpecRepl.
From Verif Require ReplProof.
Import ListNotations.
Local Open Scope string_scope.
Local Open Scope list_scope.

Definition one_line (l : str) : Prop := ~ In 10%N l.

(** The loop of the REPL does on every input what [talks] says: it takes lines
    until they are complete or cannot be completed, obeys commands, answers
    other code, and goes on after a syntax error. *)
Theorem C70_loop : forall n k s r, Forall one_line (st_in s) -> length (st_in s) < k ->
  (repl_loop n k s = r <-> talks n s r).
Proof. exact ReplProof.session_iff. Qed.
Print Assumptions C70_loop.

(** So does the whole program after its two lines of greeting. *)
Theorem C70_session : forall n o input, Forall one_line (w_in input) ->
  exists s0, init_state (list_format o) (warnings_on o) input None = Ok tt s0
    /\ forall r, repl n o input = r
         <-> talks n (printed (s_ "Pip 1.2.0" ++ [10%N] ++ s_ "Type ;help for more information." ++ [10%N]) s0) r.
Proof. exact ReplProof.repl_talks. Qed.
Print Assumptions C70_session.

(** A session that ends with Bye! was ended by a line with ;quit or an
    abbreviation of it; the lines after it are not read. *)
Theorem C70_quit : forall n s s', talks n s (Ok true s') ->
  exists pre l, st_in s = pre ++ (59%N :: l) :: st_in s' /\ named l CmdQuit
    /\ exists text, st_out s' = text ++ s_ "Bye!" ++ [10%N].
Proof. intros n s s' T. exact (ReplProof.talks_quit _ _ _ T _ eq_refl). Qed.
Print Assumptions C70_quit.

(** Every other session that is not left by an exception reads all of its
    input, and stops at a prompt. *)
Theorem C70_end : forall n s s', talks n s (Ok false s') ->
  st_in s' = [] /\ exists text, st_out s' = text ++ s_ ">> " \/ st_out s' = text ++ s_ ".. ".
Proof. intros n s s' T. exact (ReplProof.talks_end _ _ _ T _ eq_refl). Qed.
Print Assumptions C70_end.

(** The names of commands are the only comments with an effect; the command on a
    line is determined. *)
Theorem C70_named : forall l c c', named l c -> named l c' -> c = c'.
Proof.
  intros l c c' H H'. rewrite <- (ReplProof.named_command _ _ H). apply ReplProof.named_command, H'.
Qed.
Print Assumptions C70_named.

(** After a fatal error or an endless recursion in one of its statements the
    other statements of the code are skipped and the session goes on; other
    exceptions end it. *)
Theorem C70_error : forall n a t b s s1 e s2,
  mfor (repl_statement n) a s = Ok tt s1 -> i_stmt (run n) t s1 = Err e s2 ->
  repl_statements n (a ++ t :: b) s
  = match e with EFatal | EPy RecursionError => Ok tt s2 | _ => Err e s2 end.
Proof. exact ReplProof.statements_stop. Qed.
Print Assumptions C70_error.

(** A session in which everything happens: code on three lines, a syntax
    error, commands in different spellings, a fatal error, an unknown command
    and lines after the end. *)
Definition C70_lines : list string :=
  ["[1"; "2"; "3]"; "5)7"; "; WArn ON"; "1;V""*"";2"; "; WarnX"; "3;"; ";Qu now"; "4"].
Example C70_ex_lines : Forall one_line (map s_ C70_lines).
Proof. repeat constructor; intros H; repeat (destruct H as [H|H]; [discriminate H|]); exact H. Qed.
Example C70_ex_run :
  match repl 60 (mkopt false false false false false false false false false false []) (lines (map s_ C70_lines)) with
  | Ok true s => st_in s = [s_ "4"] /\ st_warn s = true
      /\ st_out s = s_ "Pip 1.2.0" ++ [10%N] ++ s_ "Type ;help for more information." ++ [10%N]
           ++ s_ ">> .. .. [1;2;3]" ++ [10%N] ++ s_ ">> >> >> 1" ++ [10%N] ++ s_ ">> >> 3" ++ [10%N]
           ++ s_ ">> Bye!" ++ [10%N]
  | _ => False
  end.
Proof. vm_compute. repeat split; reflexivity. Qed.
Example C70_ex_named : named (s_ " WArn ON") (CmdWarnings (Some true)).
Proof.
  apply (nm_on _ (s_ "WArn") (s_ "ON")).
  - apply (wd_cons [32%N] (s_ "WArn") (s_ " ON")); [repeat constructor|discriminate|repeat constructor| |].
    + right. exists 32%N, (s_ "ON"). split; reflexivity.
    + apply (wd_cons [32%N] (s_ "ON") []); [repeat constructor|discriminate|repeat constructor|left; reflexivity|].
      constructor. constructor.
  - exists (s_ "warn"), (s_ "ings"). split; [|reflexivity].
    repeat constructor; first [left; split; reflexivity|right; split; reflexivity].
  - repeat constructor; first [left; split; reflexivity|right; split; reflexivity].
Qed.
