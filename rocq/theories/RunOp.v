(** * Reducing [run_op] to the operator's definition *)

From Coq Require Import String List NArith ZArith Bool Arith Lia.
From Verif Require Import PyStr PyRe PyNum Tokens OpFun OpTable Unparse PTypes
                          Ops OpsSeq Apply.
Import ListNotations.
Local Open Scope Z_scope.

Lemma apply_op_plain : forall fmt o args,
  f_in_lambda (o_flags o) && existsb is_block args = false ->
  existsb (expands (o_flags o)) args = false ->
  apply_op fmt o args = call_pure fmt o args.
Proof.
  intros fmt o args H1 H2. unfold apply_op. cbn [apply_fuel].
  rewrite H1. destruct args as [|a [|b [|c l]]]; try reflexivity; simpl in H2;
    rewrite ?orb_false_r in H2; rewrite H2; reflexivity.
Qed.

(** Look the operator up by computation. *)
Ltac find_op :=
  unfold run_op at 1;
  match goal with
  | |- context [op_by_arity (List.length ?l) ?t] =>
    let n := eval cbv [List.length] in (List.length l) in
    let v := eval vm_compute in (op_by_arity n t) in
    let H := fresh in
    assert (H : op_by_arity (List.length l) t = v) by (vm_compute; reflexivity);
    rewrite H; clear H; cbv iota beta
  end.

(** [run_op] on arguments that are not Blocks and are not expanded. *)
Ltac run_plain :=
  find_op; rewrite apply_op_plain; [| cbn; try reflexivity | cbn; try reflexivity];
  [unfold call_pure; cbn [o_fun pure_fun pure1 pure2 pure3] | ..].
