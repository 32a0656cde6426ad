(** * Properties C52, C57, C64: operators that change a variable *)

From Coq Require Import String List NArith ZArith Bool Arith Lia.
From Verif Require Import PyStr PyNum Tokens OpFun OpTable PTypes Ops Apply Spec Heap Exec
                          SpecHeap SpecExec SpecScan SpecVars PropExec.
From Verif Require MutProof.
Import ListNotations.
Local Open Scope string_scope.
Local Open Scope list_scope.
Local Open Scope Z_scope.

(** ** C52: ++ and -- *)

(** As long as the interpreter's constant 1 ([SCALAR_ONE], cell [loc_one]) is
    intact, ++x sets x to the value of x + 1, for integers of any size, and
    changes no other variable. *)
Theorem C52_inc_partial : forall s x neg ds,
  ordinary s x -> st_scopes s <> [] -> decimal ds -> var s x (PScal (numeral neg ds)) ->
  nth_error (st_heap s) loc_one = Some (OS (s_ "1")) ->
  exists v s', gives s (app "++" [name x]) v s' /\
    den (st_heap s') v (scal_Z (numeral_value neg ds + 1)) /\
    var s' x (scal_Z (numeral_value neg ds + 1)) /\ changes_only x s s' /\ st_scopes s' <> [].
Proof. exact MutProof.inc_integer. Qed.
Print Assumptions C52_inc_partial.
Theorem C52_dec_partial : forall s x neg ds,
  ordinary s x -> st_scopes s <> [] -> decimal ds -> var s x (PScal (numeral neg ds)) ->
  nth_error (st_heap s) loc_one = Some (OS (s_ "1")) ->
  exists v s', gives s (app "--" [name x]) v s' /\
    den (st_heap s') v (scal_Z (numeral_value neg ds - 1)) /\
    var s' x (scal_Z (numeral_value neg ds - 1)) /\ changes_only x s s' /\ st_scopes s' <> [].
Proof. exact MutProof.dec_integer. Qed.
Print Assumptions C52_dec_partial.

(** The same for all values that are no Blocks: the result is that of the
    operator + or -. *)
Theorem C52_inc_value_partial : forall s x p r,
  ordinary s x -> st_scopes s <> [] -> var s x p -> is_block p = false ->
  nth_error (st_heap s) loc_one = Some (OS (s_ "1")) ->
  snd (run_op (st_fmt s) "+" [p; PScal (s_ "1")]) = Val r ->
  exists v s', gives s (app "++" [name x]) v s' /\ den (st_heap s') v r /\
    var s' x r /\ changes_only x s s' /\ st_scopes s' <> [].
Proof. exact MutProof.inc_name. Qed.
Print Assumptions C52_inc_value_partial.
Theorem C52_dec_value_partial : forall s x p r,
  ordinary s x -> st_scopes s <> [] -> var s x p -> is_block p = false ->
  nth_error (st_heap s) loc_one = Some (OS (s_ "1")) ->
  snd (run_op (st_fmt s) "-" [p; PScal (s_ "1")]) = Val r ->
  exists v s', gives s (app "--" [name x]) v s' /\ den (st_heap s') v r /\
    var s' x r /\ changes_only x s s' /\ st_scopes s' <> [].
Proof. exact MutProof.dec_name. Qed.
Print Assumptions C52_dec_value_partial.

(** Without that hypothesis the claim is false: [$<] on a one-item List
    returns the shared constant, and an item assignment then changes it
    (execution.py:18-20, 4079-4092). *)
Theorem C52_refuted :
  output_of "i:3 ++i O i" [] = Some (s_ "44" ++ [10%N])
  /\ output_of "x:$<[5] x@0:7 i:3 ++i O i" [] = Some (s_ "1010" ++ [10%N]).
Proof. split; vm_compute; reflexivity. Qed.
Print Assumptions C52_refuted.

(** ** C57: lists as stacks and queues *)

Theorem C57_push_front_partial : forall s x e p ps,
  ordinary s x -> st_scopes s <> [] -> var s x (PList ps) -> means s e p -> is_block p = false ->
  exists u s', gives s (app "PU" [name x; e]) u s' /\ den (st_heap s') u (PList (p :: ps)) /\
    var s' x (PList (p :: ps)) /\ changes_only x s s' /\ st_scopes s' <> [].
Proof. exact MutProof.push_front. Qed.
Print Assumptions C57_push_front_partial.
Theorem C57_push_back_partial : forall s x e p ps,
  ordinary s x -> st_scopes s <> [] -> var s x (PList ps) -> means s e p -> is_block p = false ->
  exists u s', gives s (app "PB" [name x; e]) u s' /\ den (st_heap s') u (PList (ps ++ [p])) /\
    var s' x (PList (ps ++ [p])) /\ changes_only x s s' /\ st_scopes s' <> [].
Proof. exact MutProof.push_back. Qed.
Print Assumptions C57_push_back_partial.

(** Removing takes any item, Blocks included. *)
Theorem C57_pop_front : forall s x p ps,
  ordinary s x -> st_scopes s <> [] -> var s x (PList (p :: ps)) ->
  exists v s', gives s (app "PO" [name x]) v s' /\ den (st_heap s') v p /\
    var s' x (PList ps) /\ changes_only x s s' /\ st_scopes s' <> [].
Proof. exact MutProof.pop_front. Qed.
Print Assumptions C57_pop_front.
Theorem C57_pop_back : forall s x p ps,
  ordinary s x -> st_scopes s <> [] -> var s x (PList (ps ++ [p])) ->
  exists v s', gives s (app "DQ" [name x]) v s' /\ den (st_heap s') v p /\
    var s' x (PList ps) /\ changes_only x s s' /\ st_scopes s' <> [].
Proof. exact MutProof.pop_back. Qed.
Print Assumptions C57_pop_back.

(** Popping undoes pushing. *)
Theorem C57_inverse_partial : forall s x e p ps u s1,
  ordinary s x -> st_scopes s <> [] -> var s x (PList ps) -> means s e p -> is_block p = false ->
  gives s (app "PU" [name x; e]) u s1 ->
  exists v s2, gives s1 (app "PO" [name x]) v s2 /\ den (st_heap s2) v p /\
    var s2 x (PList ps) /\ changes_only x s s2.
Proof. exact MutProof.push_pop. Qed.
Print Assumptions C57_inverse_partial.
Theorem C57_inverse_back_partial : forall s x e p ps u s1,
  ordinary s x -> st_scopes s <> [] -> var s x (PList ps) -> means s e p -> is_block p = false ->
  gives s (app "PB" [name x; e]) u s1 ->
  exists v s2, gives s1 (app "DQ" [name x]) v s2 /\ den (st_heap s2) v p /\
    var s2 x (PList ps) /\ changes_only x s s2.
Proof. exact MutProof.push_pop_back. Qed.
Print Assumptions C57_inverse_back_partial.

(** First in, first out, for any interleaving of additions and removals. *)
Theorem C57_fifo_partial : forall x s ins outs s2 q,
  queue_use x "PB" "PO" s ins outs s2 ->
  ordinary s x -> st_scopes s <> [] -> var s x (PList q) ->
  Forall (fun p => is_block p = false) ins ->
  exists rest, var s2 x (PList rest) /\ q ++ ins = outs ++ rest.
Proof. exact MutProof.queue_order. Qed.
Print Assumptions C57_fifo_partial.
Theorem C57_fifo_back_partial : forall x s ins outs s2 q,
  queue_use x "PU" "DQ" s ins outs s2 ->
  ordinary s x -> st_scopes s <> [] -> var s x (PList (rev q)) ->
  Forall (fun p => is_block p = false) ins ->
  exists rest, var s2 x (PList (rev rest)) /\ q ++ ins = outs ++ rest.
Proof. exact MutProof.queue_order_back. Qed.
Print Assumptions C57_fifo_back_partial.

(** A Block is not pushed: the operator builds a new function instead
    (execution.py:147-187). *)
Theorem C57_refuted :
  output_of "x:[1] x PU {a} O#x x PB 5 O#x" [] = Some (s_ "122" ++ [10%N]).
Proof. vm_compute. reflexivity. Qed.
Print Assumptions C57_refuted.
Example C57_ex :
  output_of "x:[1 2] x PB 3 x PU 0 O PO x O DQ x O PO x O#x x" []
  = Some (s_ "03112" ++ [10%N]).
Proof. vm_compute. reflexivity. Qed.

(** ** C64: an occurrence of q reads one line *)

Theorem C64_line : forall s line rest,
  st_in s = line :: rest ->
  exists v s', gives s (name (s_ "q")) v s' /\ den (st_heap s') v (PScal line) /\
    only_adds (set_in rest s) s'.
Proof. exact MutProof.read_line_ok. Qed.
Print Assumptions C64_line.
Theorem C64_end : forall s,
  st_in s = [] ->
  exists s', gives s (name (s_ "q")) HNil s' /\ only_adds s s'.
Proof. exact MutProof.read_end_ok. Qed.
Print Assumptions C64_end.

(** The operators that look at their operand twice also read only one line. *)
Theorem C64_push_back : forall s x ps line rest,
  ordinary s x -> st_scopes s <> [] -> var s x (PList ps) -> st_in s = line :: rest ->
  exists u s', gives s (app "PB" [name x; name (s_ "q")]) u s' /\
    var s' x (PList (ps ++ [PScal line])) /\
    changes_only x (set_in rest s) s' /\ st_scopes s' <> [].
Proof. exact MutProof.push_line_back. Qed.
Print Assumptions C64_push_back.
Theorem C64_push_front : forall s x ps line rest,
  ordinary s x -> st_scopes s <> [] -> var s x (PList ps) -> st_in s = line :: rest ->
  exists u s', gives s (app "PU" [name x; name (s_ "q")]) u s' /\
    var s' x (PList (PScal line :: ps)) /\
    changes_only x (set_in rest s) s' /\ st_scopes s' <> [].
Proof. exact MutProof.push_line_front. Qed.
Print Assumptions C64_push_front.

Example C64_ex :
  match run_text 60 FmtNone false (lines [s_ "ab"; s_ "cd"; s_ "ef"]) (s_ "x:[q]x PB q x PU q O x q") [] with
  | Ok _ s => st_out s
  | _ => []
  end = s_ "efabcd".
Proof. vm_compute. reflexivity. Qed.
