(** * Properties C96 and C97: expressions without side effects, items and slices *)

From Coq Require Import String List NArith ZArith Bool Arith Lia.
From Verif Require Import PyStr PyNum Tokens OpFun OpTable Parse Unparse PTypes Ops Apply Spec Heap Exec
                          SpecHeap SpecExec SpecScan SpecMain SpecRun SpecVars SpecMap SpecMeta
                          SpecFun PropExec.
From Verif Require FunProof FunProof2.
Import ListNotations.
Local Open Scope string_scope.
Local Open Scope list_scope.
Local Open Scope Z_scope.

(** ** C96 *)

(** An expression that has a value has it wherever it stands and in whatever
    state, and evaluating it has no other effect. *)
Theorem C96_value : forall s F L e r p,
  inside s F L -> dent (st_heap s) e r -> has_value (setting_of s) F L r p ->
  exists v s', gives s e v s' /\ den (st_heap s') v p /\ only_adds s s'.
Proof. exact FunProof.expression_value. Qed.
Print Assumptions C96_value.

Theorem C96_unique : forall s F L e r p q,
  inside s F L -> dent (st_heap s) e r -> has_value (setting_of s) F L r p -> has_value (setting_of s) F L r q -> p = q.
Proof. exact FunProof.expression_unique. Qed.
Print Assumptions C96_unique.

(** Recursion over a List. *)
Theorem C96_sum : forall w, w_one w ->
  forall F zs, function_of "{#a?@a+RE@>a0}" = Some F ->
  called w F [PList (map scal_Z zs)] (scal_Z (fold_right Z.add 0 zs)).
Proof. exact FunProof2.sum_list. Qed.
Print Assumptions C96_sum.

Theorem C96_reverse : forall w, w_one w ->
  forall F l, function_of "{#a?(RE@>a)AE@a[]}" = Some F -> Forall (fun p => is_block p = false) l ->
  called w F [PList l] (PList (rev l)).
Proof. exact FunProof2.reverse_list. Qed.
Print Assumptions C96_reverse.

Example C96_functions :
  (exists F, function_of "{#a?@a+RE@>a0}" = Some F) /\ (exists F, function_of "{#a?(RE@>a)AE@a[]}" = Some F).
Proof. split; eexists; vm_compute; reflexivity. Qed.
Example C96_ex :
  output_of "h:{#a?@a+RE@>a0} z:{#a?(RE@>a)AE@a[]} O (h [3;4;5]) O '/ (z [1;23;4])" []
  = Some (s_ "12/4231" ++ [10%N]).
Proof. vm_compute. reflexivity. Qed.
(** Every call of a function gets to such a place. *)
Example C96_inside : forall s e r args ps,
  den (st_heap s) (HBlock [] e) (PBlock [] r) -> dens (st_heap s) args ps ->
  exists s1, entered s (HBlock [] e) ps s1 /\ inside s1 (PBlock [] r) (bound (PBlock [] r) ps).
Proof. exact FunProof.call_inside. Qed.

(** ** C97 *)

(** Items depend on nothing but the value of the operand, whether it is a
    variable, an item of a variable, a list of variables or computed. *)
Theorem C97_item : forall s F L e re i ri p q r,
  inside s F L -> dent (st_heap s) e re -> dent (st_heap s) i ri ->
  has_value (setting_of s) F L re p -> has_value (setting_of s) F L ri q -> is_block p = false -> index_of p q ->
  snd (run_op (st_fmt s) "@" [p; q]) = Val r ->
  (exists v s', gives s (app "@" [e; i]) v s' /\ den (st_heap s') v r /\ only_adds s s') /\
  (exists v s', gives s (TApp op_send [e; i]) v s' /\ den (st_heap s') v r /\ only_adds s s').
Proof. exact FunProof.item_value. Qed.
Print Assumptions C97_item.

(** Slices too, except of lists of variables. *)
Theorem C97_slice_partial : forall s F L text e re i ri p t r,
  In text ["@<"; "@>"; "H"; "S"] ->
  inside s F L -> dent (st_heap s) e re -> dent (st_heap s) i ri ->
  has_value (setting_of s) F L re p -> has_value (setting_of s) F L ri (PScal t) -> is_block p = false -> sliceable re = true ->
  snd (run_op (st_fmt s) text [p; PScal t]) = Val r ->
  exists v s', gives s (app text [e; i]) v s' /\ den (st_heap s') v r /\ only_adds s s'.
Proof. exact FunProof.slice_value. Qed.
Print Assumptions C97_slice_partial.

(** A slice of a list of variables is the whole list. *)
Theorem C97_slice_refuted :
  output_of "[1;2]@>1" [] = Some (s_ "2" ++ [10%N]) /\
  output_of "x:1 y:2 [x;y]@>1" [] = Some (s_ "12" ++ [10%N]).
Proof. split; vm_compute; reflexivity. Qed.
Print Assumptions C97_slice_refuted.
(** A slice, taken with a Range, of the empty string is nil, but the empty
    string if a variable holds it. *)
Theorem C97_range_refuted :
  output_of "RP(""""@,2)" [] = Some (s_ "()" ++ [10%N]) /\
  output_of "x:"""" RP(x@,2)" [] = Some (s_ """""" ++ [10%N]).
Proof. split; vm_compute; reflexivity. Qed.
Print Assumptions C97_range_refuted.

Example C97_ex :
  output_of "x:[5;6;7] y:8 O x@1 O '/ O (x 2) O '/ O [x;y]@0 O '/ O x@>1 O '/ O (x H2) O '/ O (x S2)@0 O '/ [y;x;y]@(1,3)" []
  = Some (s_ "6/7/567/67/56/6/5678" ++ [10%N]).
Proof. vm_compute. reflexivity. Qed.
