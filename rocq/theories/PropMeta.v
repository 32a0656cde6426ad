(** * Folds, scans and comparison chains (C46, C47) *)

From Coq Require Import String List NArith ZArith Bool.
From Verif Require Import PyStr PyNum Tokens OpFun OpTable Parse PTypes Ops Apply
                          Spec Heap Exec SpecHeap SpecVars SpecMeta MetaProof PropExec.
Import ListNotations.
Local Open Scope string_scope.
Local Open Scope list_scope.
Local Open Scope Z_scope.

(** ** C46: folds and scans *)

(** For every binary operator and every non-empty sequence, the outcomes of the
    fold are those of the nested application to the items, side effects and
    operators that return variables included; the scan lists the values of the
    intermediate results of the same application. *)
Theorem C46_nested : forall text o s e v s1 p l,
  op_by_arity 2 (s_ text) = Some o -> o_assoc o = ALeft \/ o_assoc o = ARight ->
  gives s e v s1 -> den (st_heap s1) v p -> elems p l -> l <> [] ->
  exists vs s2, only_adds s1 s2 /\ dens (st_heap s2) vs l /\
    (forall w s', gives s (folded o e) w s' <->
       exists rs r s3, nested (inner o) s2 vs rs r s3 /\ value_of r s3 w s') /\
    (forall w s', gives s (scanned o e) w s' ->
       exists ws r s3, nested (inner o) s2 vs (map XR ws) r s3) /\
    (forall ws r s3 ps, nested (inner o) s2 vs (map XR ws) r s3 -> dens (st_heap s3) ws ps ->
       exists w s', gives s (scanned o e) w s' /\ den (st_heap s') w (PList ps)
                    /\ only_adds s3 s').
Proof. exact MetaProof.fold_scan. Qed.
Print Assumptions C46_nested.

(** There are as many intermediate results as items, and the overall result is
    the last of them, the first if the operator associates to the right. *)
Theorem C46_end : forall o s vs rs r s',
  nested o s vs rs r s' ->
  length rs = length vs
  /\ (o_assoc o = ALeft -> forall d, last rs d = r)
  /\ (o_assoc o = ARight -> forall d, hd d rs = r).
Proof. exact MetaProof.fold_is_end. Qed.
Print Assumptions C46_end.

(** On values, for the operators that are functions of their operands. *)
Theorem C46_left : forall text o s e v s1 p a l rs d,
  op_by_arity 2 (s_ text) = Some o -> value_op o 2 -> o_assoc o = ALeft ->
  gives s e v s1 -> den (st_heap s1) v p -> elems p (a :: l) -> forallb plain (a :: l) = true ->
  results_left (st_fmt s) text a l rs ->
  (exists w s', gives s (folded o e) w s' /\ den (st_heap s') w (last rs d) /\ only_adds s1 s') /\
  (exists w s', gives s (scanned o e) w s' /\ den (st_heap s') w (PList rs) /\ only_adds s1 s').
Proof. exact MetaProof.fold_left_values. Qed.
Print Assumptions C46_left.

Theorem C46_right : forall text o s e v s1 p l c rs,
  op_by_arity 2 (s_ text) = Some o -> value_op o 2 -> o_assoc o = ARight ->
  gives s e v s1 -> den (st_heap s1) v p -> elems p l -> forallb plain l = true ->
  results_right (st_fmt s) text l c rs ->
  (exists w s', gives s (folded o e) w s' /\ den (st_heap s') w c /\ only_adds s1 s') /\
  (exists w s', gives s (scanned o e) w s' /\ den (st_heap s') w (PList (c :: rs))
                /\ only_adds s1 s').
Proof. exact MetaProof.fold_right_values. Qed.
Print Assumptions C46_right.

(** Comparisons do not nest but chain; the fold of one item is true.  The
    constant 1 is an object that item assignment can change (C52).  [~=] also
    sets the match variables. *)
Theorem C46_comparison : forall text o s e v s1 p a l,
  op_by_arity 2 (s_ text) = Some o -> o_assoc o = AChain -> s_ text <> s_ "~=" ->
  nth_error (st_heap s1) loc_one = Some (OS (s_ "1")) ->
  gives s e v s1 -> den (st_heap s1) v p -> elems p (a :: l) -> forallb plain (a :: l) = true ->
  (l = [] ->
   exists w s', gives s (folded o e) w s' /\ den (st_heap s') w (PScal (s_ "1")) /\ only_adds s1 s') /\
  (forall r, chain_result (st_fmt s) a (same_links o l) r ->
   exists w s', gives s (folded o e) w s' /\ den (st_heap s') w r /\ only_adds s1 s') /\
  (forall rs,
   Forall2 (fun n r => chain_result (st_fmt s) a (same_links o (firstn n l)) r)
           (seq 1 (length l)) rs ->
   exists w s', gives s (scanned o e) w s'
     /\ den (st_heap s') w (PList (PScal (s_ "1") :: rs)) /\ only_adds s1 s').
Proof. exact MetaProof.fold_comparison. Qed.
Print Assumptions C46_comparison.

(** An empty sequence folds to the operator's default and scans to [[]]. *)
Theorem C46_empty : forall text o s e v s1 p,
  op_by_arity 2 (s_ text) = Some o ->
  gives s e v s1 -> den (st_heap s1) v p -> elems p [] ->
  (exists w s', gives s (folded o e) w s' /\ only_adds s1 s'
     /\ den (st_heap s') w (default_val (o_default o))) /\
  (exists w s', gives s (scanned o e) w s' /\ den (st_heap s') w (PList []) /\ only_adds s1 s').
Proof. exact MetaProof.fold_empty. Qed.
Print Assumptions C46_empty.

Definition op_of (text : string) : oper :=
  match op_by_arity 2 (s_ text) with Some o => o | None => op_chain end.
Definition sc (t : string) : pval := PScal (s_ t).

Example C46_ex_left :
  value_op (op_of "-") 2 /\ o_assoc (op_of "-") = ALeft
  /\ results_left FmtNone "-" (sc "9") [sc "2"; sc "3"] [sc "9"; sc "7"; sc "4"].
Proof.
  split; [split; reflexivity|]. split; [reflexivity|].
  eapply results_left_step; [vm_compute; reflexivity|reflexivity|].
  eapply results_left_step; [vm_compute; reflexivity|reflexivity|]. constructor.
Qed.
Example C46_ex_right :
  value_op (op_of "E") 2 /\ o_assoc (op_of "E") = ARight
  /\ results_right FmtNone "E" [sc "2"; sc "3"; sc "2"] (sc "512") [sc "9"; sc "2"].
Proof.
  split; [split; reflexivity|]. split; [reflexivity|].
  eapply results_right_step; [|vm_compute; reflexivity|reflexivity].
  eapply results_right_step; [|vm_compute; reflexivity|reflexivity]. constructor.
Qed.
Example C46_ex :
  output_of "P $-[9 2 3] P (\$-[9 2 3])J', P $E[2 3 2] P (\$E[2 3 2])J', P $+[] P $<[1 2 2] P (\$<[1 2 2])J', P $AL'ab x:5 P $|[0 x 7] P $:[x 8] P x" []
  = Some (flat_map (fun l => s_ l ++ [10%N])
       ["4"; "9,7,4"; "512"; "512,9,2"; "0"; "0"; "1,1,0"; "a"; "5"; "8"; "5"; "5"]).
Proof. vm_compute. reflexivity. Qed.

(** ** C47: chains of comparisons *)

(** The operands are evaluated once each, from left to right; the result is
    that of the first link that is not true, or of the last.  Missing of the
    full claim: evaluation of the operands does not stop at that link. *)
Theorem C47_chain_partial : forall s e0 links v0 vs s1 p0 ps r,
  links <> [] -> Forall comparison (map fst links) ->
  operands s (e0 :: map snd links) (v0 :: vs) s1 ->
  dens (st_heap s1) (v0 :: vs) (p0 :: ps) ->
  Forall (fun p => is_block p = false) (p0 :: ps) ->
  chain_result (st_fmt s) p0 (combine (map fst links) ps) r ->
  exists w s', gives s (chain_tree e0 links) w s' /\ den (st_heap s') w r /\ only_adds s1 s'.
Proof. exact MetaProof.chain_gives. Qed.
Print Assumptions C47_chain_partial.

(** That result is true exactly when every link is. *)
Theorem C47_conjunction : forall fmt a links r,
  chain_result fmt a links r -> counts r true <-> all_links fmt a links.
Proof. exact MetaProof.chain_conjunction. Qed.
Print Assumptions C47_conjunction.

Example C47_ex_result :
  comparison (op_of "<") /\ comparison (op_of ">=")
  /\ chain_result FmtNone (sc "1") [(op_of "<", sc "5"); (op_of ">=", sc "7"); (op_of "<", sc "9")] (sc "0")
  /\ chain_result FmtNone (sc "1") [(op_of "<", sc "5"); (op_of ">=", sc "4")] (sc "1").
Proof.
  split; [exists (s_ "<"); split; [vm_compute; reflexivity|split; [vm_compute; reflexivity|discriminate]]|].
  split; [exists (s_ ">="); split; [vm_compute; reflexivity|split; [vm_compute; reflexivity|discriminate]]|].
  split.
  - eapply chain_true; [vm_compute; reflexivity|vm_compute; reflexivity|].
    apply chain_false; vm_compute; reflexivity.
  - eapply chain_true; [vm_compute; reflexivity|vm_compute; reflexivity|].
    apply chain_last; vm_compute; reflexivity.
Qed.

(** The operand after a false link is evaluated all the same: this program
    prints 7 although 1 > 2 is false. *)
Definition number (t : string) : tree hval := TTok (Tok KNumber (s_ t)).
Definition start : state := blank_state FmtNone false (lines []) None.
Definition value_after (m : outcome hval) : hval := match m with Ok v _ => v | _ => HNil end.
Definition state_after (m : outcome hval) : state := match m with Ok _ s => s | _ => start end.
Definition false_chain : tree hval :=
  chain_tree (number "1") [(op_of ">", number "2"); (op_of "<", app "O" [number "7"])].
Theorem C47_refuted :
  exists e0 o1 e1 o2 e2 s v0 v1 s1 p0 p1 r w s',
    comparison o1 /\ comparison o2
    /\ operands s [e0; e1] [v0; v1] s1 /\ dens (st_heap s1) [v0; v1] [p0; p1]
    /\ snd (apply_op (st_fmt s) o1 [p0; p1]) = Val r /\ counts r false
    /\ gives s (chain_tree e0 [(o1, e1); (o2, e2)]) w s'
    /\ st_out s1 = [] /\ st_out s' = s_ "7".
Proof.
  pose (m1 := rval_tree (run 9) (number "1") start).
  pose (m2 := rval_tree (run 9) (number "2") (state_after m1)).
  pose (m3 := rval_tree (run 9) false_chain start).
  exists (number "1"), (op_of ">"), (number "2"), (op_of "<"), (app "O" [number "7"]), start,
    (value_after m1), (value_after m2), (state_after m2), (sc "1"), (sc "2"), (sc "0"),
    (value_after m3), (state_after m3).
  split; [exists (s_ ">"); split; [vm_compute; reflexivity|split; [vm_compute; reflexivity|discriminate]]|].
  split; [exists (s_ "<"); split; [vm_compute; reflexivity|split; [vm_compute; reflexivity|discriminate]]|].
  split.
  { eapply operands_cons with (s1 := state_after m1); [exists 9%nat; vm_compute; reflexivity|].
    eapply operands_cons with (s1 := state_after m2); [exists 9%nat; vm_compute; reflexivity|].
    constructor. }
  split; [constructor; [apply den_scal; vm_compute; reflexivity|
          constructor; [apply den_scal; vm_compute; reflexivity|constructor]]|].
  split; [vm_compute; reflexivity|]. split; [vm_compute; reflexivity|].
  split; [exists 9%nat; vm_compute; reflexivity|].
  split; vm_compute; reflexivity.
Qed.
Print Assumptions C47_refuted.
