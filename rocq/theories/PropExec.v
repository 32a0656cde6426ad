(** * Properties C42, C49, C60: calls, warnings, termination *)

From Coq Require Import String List NArith ZArith Bool Arith Lia.
From Verif Require Import PyStr PyNum Tokens OpTable PTypes Heap Exec SpecHeap SpecExec.
From Verif Require ExecInv ProgProof.
Import ListNotations.
Local Open Scope string_scope.
Local Open Scope list_scope.
Local Open Scope Z_scope.

(** A program's output, for examples. *)
Definition output_of (text : string) (args : list string) : option str :=
  match run_text 60 FmtNone false (lines []) (s_ text) (map s_ args) with
  | Ok _ s => Some (st_out s)
  | _ => None
  end.

(** ** C42: function calls and the caller's local variables *)

(** If no error of a sort key function was swallowed during the call, the
    scopes of all callers are exactly as before and at the same depth. *)
Theorem C42_call_partial : forall n f args s v s',
  i_call (run n) f args s = Ok v s' ->
  st_swallowed s' = st_swallowed s ->
  st_scopes s' = st_scopes s /\ st_depth s' = st_depth s.
Proof.
  intros n f args s v s' E W.
  destruct (ExecInv.call_scopes n f args s v s' E) as (_ & x & Es & D & N).
  specialize (N W). subst x. simpl in *. rewrite Z.add_0_r in D. auto.
Qed.
Print Assumptions C42_call_partial.

(** Whatever happens, the callers' scopes are still there, unchanged, below
    the scopes left open. *)
Theorem C42_stack_partial : forall n f args s v s',
  i_call (run n) f args s = Ok v s' ->
  exists extra, st_scopes s' = extra ++ st_scopes s
    /\ st_depth s' = st_depth s + Z.of_nat (length extra).
Proof.
  intros n f args s v s' E.
  destruct (ExecInv.call_scopes n f args s v s' E) as (_ & x & Es & D & _). eauto.
Qed.
Print Assumptions C42_stack_partial.

(** A program's calls: the local variable [c] of the caller is not the [c] of
    the recursive function. *)
Example C42_ex :
  output_of "c:5 f:{c:a (a>0 ? (f a-1)+c 0)} (f 4).""/"".c" []
  = Some (s_ "10/5" ++ [10%N]).
Proof. vm_compute. reflexivity. Qed.

(** SORTKEYED catches a TypeError raised inside its key function, whose scope
    then stays open: after the call of [f], the caller's [c] is no longer
    visible. *)
Definition C42_prog (body : string) : string :=
  "c:5 f:{y:{l:[w]" ++ body ++ "}SK[1 2] 3} y:(f 1) c".
Theorem C42_refuted :
  output_of (C42_prog "l@0+:1") [] = Some (s_ "5" ++ [10%N])
  /\ output_of (C42_prog "l@0@0+:1") [] = Some []
  /\ exists f args s v s', i_call (run 60) f args s = Ok v s'
       /\ st_scopes s' <> st_scopes s /\ st_depth s' = st_depth s + 1.
Proof.
  split; [vm_compute; reflexivity|]. split; [vm_compute; reflexivity|].
  pose (m := match Scan.scan (s_ "{l:[w]l@0@0+:1}SK[1 2]") with
             | Scan.ScanOk ts _ => match Parse.parse_program (V := hval) ts with
                                   | Parse.POk sts _ => sts
                                   | _ => []
                                   end
             | _ => []
             end).
  pose (s0 := set_vars [(s_ "w", HPat (s_ "x") 0)] (blank_state FmtNone false (lines []) None)).
  exists (mk_block m), [], s0.
  destruct (i_call (run 60) (mk_block m) [] s0) as [v s'|e s'|] eqn:E;
    [|vm_compute in E; discriminate|vm_compute in E; discriminate].
  exists v, s'. split; [reflexivity|].
  vm_compute in E. injection E as _ E. subst s'. split; [discriminate|reflexivity].
Qed.
Print Assumptions C42_refuted.

(** ** C49: warnings *)

(** With and without the warnings flag a program ends in the same way, with
    the same output, the same unread input, the same variables. *)
Theorem C49_same : forall n fmt input text args,
  same_end (run_text n fmt true input text args)
           (run_text n fmt false input text args).
Proof.
  intros n fmt input text args.
  pose proof (ProgProof.run_text_warn n fmt input text args) as H.
  destruct (run_text n fmt true input text args) as [a s1|e s1|],
           (run_text n fmt false input text args) as [b s2|e' s2|];
    try contradiction; try (destruct H as [-> H]); constructor;
    unfold ExecInv.same_but_warnings in H;
    injection H as E1 E2 E3 E4 E5 E6 E7 E8 E9 E10 E11;
    unfold agree; repeat split; assumption.
Qed.
Print Assumptions C49_same.

(** Without the flag nothing is printed as a warning. *)
Theorem C49_quiet : forall n fmt input text args s,
  ends_in (run_text n fmt false input text args) s -> st_diag s = [].
Proof.
  intros n fmt input text args s H.
  pose proof (ProgProof.run_text_quiet n fmt input text args) as Q.
  inversion H; subst; match goal with A : _ = _ |- _ => rewrite <- A in Q end; exact Q.
Qed.
Print Assumptions C49_quiet.

(** A program that causes a warning. *)
Example C49_ex :
  exists s1 s2,
    run_text 20 FmtNone true (lines []) (s_ "x:[] P7 x@5") [] = Ok tt s1
    /\ run_text 20 FmtNone false (lines []) (s_ "x:[] P7 x@5") [] = Ok tt s2
    /\ st_out s1 = s_ "7" ++ [10%N] /\ st_diag s1 <> [] /\ st_diag s2 = [].
Proof.
  destruct (run_text 20 FmtNone true (lines []) (s_ "x:[] P7 x@5") []) as [[] s1|e s1|] eqn:E1;
    [|vm_compute in E1; discriminate|vm_compute in E1; discriminate].
  destruct (run_text 20 FmtNone false (lines []) (s_ "x:[] P7 x@5") []) as [[] s2|e s2|] eqn:E2;
    [|vm_compute in E2; discriminate|vm_compute in E2; discriminate].
  exists s1, s2. split; [reflexivity|]. split; [reflexivity|].
  vm_compute in E1. injection E1 as <-. vm_compute in E2. injection E2 as <-.
  split; [reflexivity|]. split; [discriminate|reflexivity].
Qed.

(** ** C60: a result does not depend on how long we are willing to wait *)

(** If a program ends within [n] levels of recursion, it ends in the same way
    whatever larger number is allowed. *)
Theorem C60_fuel : forall n n' fmt w input text args,
  (n <= n')%nat ->
  run_text n fmt w input text args <> Fuel ->
  run_text n' fmt w input text args = run_text n fmt w input text args.
Proof. exact ProgProof.run_text_fuel. Qed.
Print Assumptions C60_fuel.

(** Output already written stays, input is read in order, and the settings
    of the run do not change. *)
Theorem C60_io : forall n f args s v s',
  i_call (run n) f args s = Ok v s' ->
  (exists t, st_out s' = st_out s ++ t) /\ (exists k, st_in s = k ++ st_in s') /\
  st_fmt s' = st_fmt s /\ st_warn s' = st_warn s /\ st_args s' = st_args s /\
  st_main s' = st_main s.
Proof. exact ProgProof.call_io. Qed.
Print Assumptions C60_io.

Example C60_ex :
  run_text 3 FmtNone false (lines []) (s_ "Fi,3Pi*2") [] = Fuel
  /\ output_of "Fi,3Pi*2" [] = Some (s_ "0" ++ [10%N] ++ s_ "2" ++ [10%N] ++ s_ "4" ++ [10%N]).
Proof. split; vm_compute; reflexivity. Qed.
