(** * Properties C50, C51, C53, C65, C66, C67: the main program and the REPL *)

From Coq Require Import String List NArith ZArith Bool Arith Lia.
From Verif Require Import PyStr PyNum Tokens OpTable Scan Parse PTypes Heap Exec SpecHeap SpecVars
                          Main SpecMain.
From Verif Require MainProof.
Import ListNotations.
Local Open Scope string_scope.
Local Open Scope list_scope.
Local Open Scope Z_scope.

(** ** C50: splitting an argument line *)

(** A line on which these arguments are written, with quotes where necessary
    and any number of spaces between them, is split into these arguments. *)
Theorem C50_split : forall l args, line_of l args -> split_args l = args.
Proof. exact MainProof.split_args_line. Qed.
Print Assumptions C50_split.

(** Every list of arguments can be written, whatever characters are in them. *)
Theorem C50_any : forall args, exists l, line_of l args /\ split_args l = args.
Proof.
  intros args. destruct (MainProof.line_any args) as [l H]. exists l.
  split; [exact H|]. exact (MainProof.split_args_line _ _ H).
Qed.
Print Assumptions C50_any.

(** Every line is of this kind, or it ends inside quotes; in the latter case
    the unfinished argument is dropped without a message. *)
Theorem C50_complete : forall l,
  (exists args, line_of l args) \/
  exists u, unclosed u /\
    (l = u \/ exists l0 args, line_of l0 args /\ l = l0 ++ 32%N :: u).
Proof.
  intros l. destruct (MainProof.every_line l) as [H|(l0 & u & args & H & U & D)]; [left; exact H|].
  right. exists u. split; [exact U|]. destruct D as [[-> _]|D]; [left; reflexivity|].
  right. exists l0, args. auto.
Qed.
Print Assumptions C50_complete.
Theorem C50_unclosed : forall l u args,
  line_of l args -> unclosed u -> split_args (l ++ 32%N :: u) = args /\ split_args u = [].
Proof. exact MainProof.split_args_unclosed. Qed.
Print Assumptions C50_unclosed.

Example C50_ex : line_of (s_ "  a'b c'  ""'""'""' ''") [s_ "ab c"; s_ "'"""; []].
Proof.
  do 2 apply line_space.
  apply (line_arg (s_ "a'b c'") (s_ "ab c") (s_ " ""'""'""' ''")).
  - apply (spells_more (s_ "a") (s_ "a") (s_ "'b c'") (s_ "b c")).
    + constructor; [intros [E|E]; discriminate|discriminate].
    + constructor. apply (piece_quoted 39 (s_ "b c")); [left; reflexivity|].
      intros [E|[E|[E|[]]]]; discriminate.
  - apply line_space.
    apply (line_arg (s_ """'""'""'") (s_ "'""") (s_ "''") [[]]).
    + apply (spells_more (s_ """'""") (s_ "'") (s_ "'""'") (s_ """")).
      * apply (piece_quoted 34 (s_ "'")); [right; reflexivity|]. intros [E|[]]. discriminate.
      * constructor. apply (piece_quoted 39 (s_ """")); [left; reflexivity|].
        intros [E|[]]. discriminate.
    + constructor. constructor. apply (piece_quoted 39 []); [left; reflexivity|intros []].
Qed.
Example C50_ex_lost : split_args (s_ "one two 'three four") = [s_ "one"; s_ "two"]
  /\ unclosed (s_ "'three four").
Proof.
  split; [vm_compute; reflexivity|]. apply (unclosed_here 39 (s_ "three four")).
  - left. reflexivity.
  - intros I. repeat (destruct I as [I|I]; [discriminate|]). destruct I.
Qed.

(** ** C51: list formats *)

(** O and P write the listing of the value, P and a newline; nothing else
    happens. *)
Theorem C51_print : forall e s v s1 p,
  gives s e v s1 -> den (st_heap s1) v p -> p <> PNil ->
  gives s (SpecVars.app "O" [e]) v (printed (listing (st_fmt s1) p) s1)
  /\ gives s (SpecVars.app "P" [e]) v (printed (listing (st_fmt s1) p ++ [10%N]) s1).
Proof. exact MainProof.output_expr. Qed.
Print Assumptions C51_print.
Theorem C51_nil : forall e s s1,
  gives s e HNil s1 ->
  gives s (SpecVars.app "O" [e]) HNil s1 /\ gives s (SpecVars.app "P" [e]) HNil s1.
Proof. exact MainProof.output_nil. Qed.
Print Assumptions C51_nil.
(** The same text is used wherever a value becomes a string. *)
Theorem C51_str : forall fmt p, p_str fmt p = listing fmt p.
Proof. exact MainProof.str_listing. Qed.
Print Assumptions C51_str.

(** The options for lists, of which the command line allows one. *)
Inductive format_option : (options -> bool) -> ofmt -> Prop :=
| fo_p : format_option op_repr Fmt_p
| fo_P : format_option op_reprlines Fmt_P
| fo_s : format_option op_space Fmt_s
| fo_S : format_option op_spacelines Fmt_S
| fo_n : format_option op_newline Fmt_n
| fo_l : format_option op_lines Fmt_l.
Theorem C51_option : forall o f fmt,
  op_debug o = false -> format_option f fmt -> f o = true ->
  (forall g fmt', format_option g fmt' -> g o = true -> fmt' = fmt) ->
  list_format o = fmt.
Proof.
  intros o f fmt D F E U. unfold list_format. rewrite D, orb_false_r.
  destruct (op_repr o) eqn:E1; [exact (U _ _ fo_p E1)|].
  destruct (op_reprlines o) eqn:E2; [exact (U _ _ fo_P E2)|].
  destruct (op_space o) eqn:E3; [exact (U _ _ fo_s E3)|].
  destruct (op_spacelines o) eqn:E4; [exact (U _ _ fo_S E4)|].
  destruct (op_newline o) eqn:E5; [exact (U _ _ fo_n E5)|].
  destruct (op_lines o) eqn:E6; [exact (U _ _ fo_l E6)|].
  destruct F; congruence.
Qed.
Print Assumptions C51_option.
Theorem C51_no_option : forall o, op_debug o = false ->
  (forall g fmt, format_option g fmt -> g o = false) -> list_format o = FmtNone.
Proof.
  intros o D U. unfold list_format.
  rewrite D, (U _ _ fo_p), (U _ _ fo_P), (U _ _ fo_s), (U _ _ fo_S), (U _ _ fo_n), (U _ _ fo_l). reflexivity.
Qed.
Print Assumptions C51_no_option.
(** -d is -p with -w, for programs and sessions (the message of -v is not
    modelled). *)
Definition debugging (o : options) : options :=
  mkopt true (op_warnings o) (op_repr o) (op_reprlines o) (op_space o) (op_spacelines o)
        (op_newline o) (op_lines o) (op_readlines o) (op_exec_args o) (op_args o).
Definition repr_with_warnings (o : options) : options :=
  mkopt false true true (op_reprlines o) (op_space o) (op_spacelines o)
        (op_newline o) (op_lines o) (op_readlines o) (op_exec_args o) (op_args o).
Theorem C51_debug : forall n o input program,
  pip_main n (debugging o) input program = pip_main n (repr_with_warnings o) input program
  /\ repl n (debugging o) input = repl n (repr_with_warnings o) input.
Proof.
  intros n o input program.
  assert (F : list_format (debugging o) = list_format (repr_with_warnings o)).
  { unfold list_format, debugging, repr_with_warnings. cbn [op_repr op_debug]. rewrite orb_true_r. reflexivity. }
  assert (W : warnings_on (debugging o) = warnings_on (repr_with_warnings o)).
  { unfold warnings_on, debugging, repr_with_warnings. cbn [op_warnings op_debug]. rewrite orb_true_r. reflexivity. }
  unfold pip_main, repl. rewrite F, W.
  split; reflexivity.
Qed.
Print Assumptions C51_debug.

Definition C51_value : pval :=
  PList [PScal (s_ "a"); PList [PScal (s_ "1"); PList []; PRange None (Some 2)]; PNil].
Example C51_ex :
  listing FmtNone C51_value = s_ "a101"
  /\ listing Fmt_s C51_value = s_ "a 1  0 1 "
  /\ listing Fmt_p C51_value = s_ "[""a"";[1;[];((),2)];()]"
  /\ listing Fmt_l C51_value = s_ "a" ++ [10%N] ++ s_ "10" ++ [10%N] ++ s_ "1" ++ [10%N]
  /\ listing Fmt_S C51_value = s_ "a" ++ [10%N] ++ s_ "1  0" ++ [10%N] ++ s_ "1" ++ [10%N].
Proof. vm_compute. repeat split; reflexivity. Qed.
Definition plain_options : options :=
  mkopt false false false false false false false false false false [].
Definition printed_by (o : options) (input : list string) (text : string) : option str :=
  match pip_main 60 o (Exec.lines (map s_ input)) (s_ text) with Ok _ s => Some (st_out s) | _ => None end.
Example C51_ex_run :
  printed_by (mkopt false false false false true false false false false false []) []
             "[1 [2;,3] """"]" = Some (s_ "1 2 0 1 2 " ++ [10%N])
  /\ printed_by (mkopt true false false false true false false false false false []) []
             "[1 [2;,3] """"]" = Some (s_ "[1;[2;((),3)];""""]" ++ [10%N]).
Proof. vm_compute. split; reflexivity. Qed.

(** ** C53: errors and the scopes of the REPL *)

(** Without an error (none reported, none swallowed by a sort), the
    statements of a line leave the REPL in the scope it was in. *)
Theorem C53_normal_partial : forall s sts s' sc rest,
  replies s sts s' -> st_scopes s = sc :: rest -> st_swallowed s' = st_swallowed s ->
  exists vars, st_scopes s' = mkscope (sc_fun sc) vars :: rest /\ st_depth s' = st_depth s.
Proof. exact MainProof.replies_scopes. Qed.
Print Assumptions C53_normal_partial.

(** Whatever happens on the lines of a session, the top-level scope is still
    there, below any scopes that were left open. *)
Theorem C53_session_partial : forall n o input b s',
  repl n o input = Ok b s' ->
  exists extra vars, st_scopes s' = extra ++ [mkscope None vars].
Proof. exact MainProof.session_scopes. Qed.
Print Assumptions C53_session_partial.

(** A call that fails leaves all scopes of its callers exactly as they
    were, below the scopes that were open. *)
Theorem C53_call_partial : forall n f args s e s',
  i_call (run n) f args s = Err e s' ->
  exists extra, st_scopes s' = extra ++ st_scopes s
    /\ st_depth s' = st_depth s + Z.of_nat (length extra).
Proof. exact MainProof.call_fails_scopes. Qed.
Print Assumptions C53_call_partial.

(** But these scopes stay open: after an error in the function f, which is
    called with the text ["*"], the top-level [a] is hidden by the parameter of
    f, and the local variable [b] of f is visible. *)
Definition session (lines : list string) : option str :=
  match repl 60 plain_options (Exec.lines (map s_ lines)) with Ok true s => Some (st_out s) | _ => None end.
Definition banner : str :=
  s_ "Pip 1.2.0" ++ [10%N] ++ s_ "Type ;help for more information." ++ [10%N].
Definition shown (l : list string) : str :=
  concat (map (fun x => s_ ">> " ++ s_ x ++ [10%N]) l) ++ s_ ">> Bye!" ++ [10%N].
Theorem C53_refuted :
  session ["a:5"; "f:{b:3;V a}"; "a"; "b"; ";quit"]
  = Some (banner ++ shown ["5"; "{b : 3; V a}"; "5"; "()"])
  /\ session ["a:5"; "f:{b:3;V a}"; "(f ""*"")"; "a"; "b"; ";quit"]
  = Some (banner ++ s_ ">> 5" ++ [10%N] ++ s_ ">> {b : 3; V a}" ++ [10%N]
          ++ s_ ">> " ++ shown ["""*"""; "3"]).
Proof. vm_compute. split; reflexivity. Qed.

(** ** C65: the REPL prints the repr of every value and remembers it *)

Theorem C65_value : forall s t v s1 p l,
  executes s t (Some v) s1 -> den (st_heap s1) v p -> history s1 l ->
  exists s2, replies s [t] s2 /\ history s2 (p :: l)
    /\ st_out s2 = st_out s1 ++ p_repr p ++ [10%N] /\ st_in s2 = st_in s1
    /\ forall x q, (forall i, (1 <= i <= 3)%nat -> x <> 36%N :: repeat 95%N i) ->
         var s1 x q -> var s2 x q.
Proof. exact MainProof.replies_value. Qed.
Print Assumptions C65_value.
Theorem C65_command : forall s t s1, executes s t None s1 -> replies s [t] s1.
Proof. exact MainProof.replies_command. Qed.
Print Assumptions C65_command.
(** The statements of a line are answered one after the other. *)
Theorem C65_line : forall a s b s',
  replies s (a ++ b) s' <-> exists s1, replies s a s1 /\ replies s1 b s'.
Proof. exact MainProof.replies_app. Qed.
Print Assumptions C65_line.

Example C65_ex :
  session ["[1 ""a"" ()]"; "'b P 5; Fi,2Oi"; "$___.$__.$_"; ";x"]
  = Some (banner ++ s_ ">> [1;""a"";()]" ++ [10%N] ++ s_ ">> ""b""" ++ [10%N]
          ++ s_ "5" ++ [10%N] ++ s_ "5" ++ [10%N] ++ s_ "01" ++ shown ["[""1b5"";""ab5"";()]"]).
Proof. vm_compute. reflexivity. Qed.

(** ** C66: lines are read until the code is complete *)

(** The REPL takes the shortest complete sequence of lines, prints one
    continuation prompt for each line after the first, and answers the
    statements. *)
Theorem C66_lines : forall n k s lines rest sts,
  lines <> [] -> st_in s = lines ++ rest ->
  (forall j, (0 < j < length lines)%nat -> incomplete (joined_lines (firstn j lines))) ->
  complete (joined_lines lines) sts ->
  (forall r, joined_lines lines <> 59%N :: r) ->
  repl_loop n (S k) s
  = mbind (repl_statements n sts) (fun _ => repl_loop n k)
      (set_in rest (printed (s_ ">> " ++ concat (repeat (s_ ".. ") (length lines - 1))) s)).
Proof. exact MainProof.loop_reads. Qed.
Print Assumptions C66_lines.

Example C66_ex :
  session ["[1"; "{a+"; "2}M[5"; "6]]"; ";x"]
  = Some (banner ++ s_ ">> .. .. .. [1;[7;8]]" ++ [10%N] ++ shown [])
  /\ incomplete (joined_lines [s_ "[1"; s_ "{a+"])
  /\ exists sts, complete (joined_lines [s_ "[1"; s_ "{a+"; s_ "2}M[5"; s_ "6]]"]) sts.
Proof.
  split; [vm_compute; reflexivity|]. split.
  - right. do 2 eexists. split; vm_compute; reflexivity.
  - do 4 eexists. split; vm_compute; reflexivity.
Qed.

(** ** C67: -r takes the arguments from standard input *)

(** Running a program with -r is the same as giving it the lines of standard
    input as arguments, and an empty input. *)
Theorem C67_readlines : forall n o input program sts,
  op_readlines o = true -> complete program sts ->
  pip_main n o input program = pip_main n (given o (w_in input)) (mkworld [] (w_rand input)) program.
Proof. exact MainProof.readlines_eq. Qed.
Print Assumptions C67_readlines.

Example C67_ex :
  printed_by (mkopt false false true false false false false false true false [s_ "x"])
             ["one two"; "3"] "[q g]" = Some (s_ "[();[""one two"";3]]" ++ [10%N]).
Proof. vm_compute. reflexivity. Qed.
