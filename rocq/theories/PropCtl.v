(** * Properties C44, C54, C62: history variables, loops, conditions *)

From Coq Require Import String List NArith ZArith Bool Arith Lia.
From Verif Require Import PyStr PyNum Tokens OpFun OpTable PTypes Ops Apply Spec Heap Exec
                          SpecHeap SpecExec SpecScan SpecVars PropExec.
From Verif Require LoopProof CtlProof.
Import ListNotations.
Local Open Scope string_scope.
Local Open Scope list_scope.
Local Open Scope Z_scope.

(** ** C44: the history variables *)

(** One expression statement in a function body. *)
Theorem C44_step : forall s t v p s1 l,
  executes s t (Some v) s1 -> den (st_heap s1) v p -> history s1 l ->
  exists s2, function_body s [t] s2 /\ history s2 (p :: l).
Proof. exact LoopProof.history_step. Qed.
Print Assumptions C44_step.

(** Any number of statements: afterwards the variables hold the last three
    values. *)
Theorem C44_run : forall sts s ps s' l,
  tells sts s ps s' -> history s l ->
  function_body s sts s' /\ history s' (rev ps ++ l).
Proof. exact LoopProof.history_run. Qed.
Print Assumptions C44_run.

(** A call starts with an empty history ([entered]), and its last expression
    sees the history of the statements before it. *)
Theorem C44_call : forall sts ret args ps s,
  dens (st_heap s) args ps ->
  exists s1, history s1 [] /\ (exists sc, st_scopes s1 = sc :: st_scopes s) /\
    forall v s', (exists n, i_call (run n) (HBlock sts ret) args s = Ok v s') <->
      exists s2 s3, function_body s1 sts s2 /\ gives s2 ret v s3 /\ left s3 s'.
Proof.
  intros sts ret args ps s D. destruct (LoopProof.call_does sts ret args ps s D) as (s1 & H & I).
  exists s1. split; [apply H|]. split; [|exact I].
  destruct H as [[sc (_ & E & _)] _]. exists sc. exact E.
Qed.
Print Assumptions C44_call.

Example C44_ex :
  output_of "5 6 I 1 {7} [8] ($_ . ""/"" . $__ . ""/"" . $___)" []
  = Some (s_ "8/6/5" ++ [10%N]).
Proof. vm_compute. reflexivity. Qed.

(** ** C54: counted loops and loops over items *)

(** L: the body runs exactly as often as the count says. *)
Theorem C54_loop : forall s e body v s1 p k s',
  gives s e v s1 -> den (st_heap s1) v p -> repetitions p k ->
  executes s (command_stmt "L" [e; TBlk body]) None s' <-> times body k s1 s'.
Proof. exact LoopProof.loop_does. Qed.
Print Assumptions C54_loop.

(** F: the body runs once per item, in order, with the variable bound to an
    object with the item's value. *)
Theorem C54_for : forall s x e body v s1 p l,
  ordinary s x -> gives s e v s1 -> den (st_heap s1) v p -> elems p l ->
  exists vs s2, only_adds s1 s2 /\ dens (st_heap s2) vs l /\
    forall s', executes s (command_stmt "F" [name x; e; TBlk body]) None s'
               <-> for_each x body vs s2 s'.
Proof. exact LoopProof.for_does. Qed.
Print Assumptions C54_for.

Example C54_ex :
  output_of "L 3 O1 L -2 O2 L [7 8] O3 L 2.9 O4 F x ,4 O x F x ""ab"" O x" []
  = Some (s_ "11133440123ab").
Proof. vm_compute. reflexivity. Qed.

(** ** C62: conditions *)

Theorem C62_if : forall s c yes no v s1 b s',
  gives s c v s1 -> object_counts (st_heap s1) v b ->
  executes s (command_stmt "I" [c; TBlk yes; TBlk no]) None s'
  <-> does (if b then yes else no) s1 s'.
Proof. exact LoopProof.if_does. Qed.
Print Assumptions C62_if.

(** W and T: the loops that [while_does] describes are exactly the runs. *)
Theorem C62_while : forall s c body s',
  executes s (command_stmt "W" [c; TBlk body]) None s' <-> while_does true c body s s'.
Proof. exact LoopProof.while_iff. Qed.
Print Assumptions C62_while.
Theorem C62_till : forall s c body s',
  executes s (command_stmt "T" [c; TBlk body]) None s' <-> while_does false c body s s'.
Proof. exact LoopProof.till_iff. Qed.
Print Assumptions C62_till.

Example C62_ex :
  output_of "i:0 W i<4 {O i ++i} T i<2 {O 9 i-:1} I i {O 7} EL {O 8}" []
  = Some (s_ "01239997").
Proof. vm_compute. reflexivity. Qed.

(** ** C63: calling a function *)

Theorem C63_call : forall sts ret args ps s,
  dens (st_heap s) args ps ->
  exists s1, entered s (HBlock sts ret) ps s1 /\
    forall v s', (exists n, i_call (run n) (HBlock sts ret) args s = Ok v s') <->
      exists s2 s3, function_body s1 sts s2 /\ gives s2 ret v s3 /\ left s3 s'.
Proof. exact LoopProof.call_does. Qed.
Print Assumptions C63_call.
Example C63_ex :
  output_of "x:{O g.#g a:7 [e d c b a g]} b:3 (x 1 2).b" []
  = Some (s_ "122223731323" ++ [10%N]).
Proof. vm_compute. reflexivity. Qed.
