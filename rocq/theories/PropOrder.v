(** * Comparing nested Lists (C58) *)

From Coq Require Import String List NArith ZArith Bool.
From Verif Require Import PyStr PyNum Tokens OpFun OpTable PTypes Ops Apply
                          Spec SpecRun OrderProof.
Import ListNotations.
Local Open Scope string_scope.
Local Open Scope list_scope.
Local Open Scope Z_scope.

(** Two Scalars, or two Lists that are alike wherever both have an item, have
    one three-way answer that all six string comparisons agree with; it is the
    lexicographic order, item by item and within each Scalar. *)
Theorem C58_text : forall fmt a b, alike a b -> exists c,
  answers fmt "LT" "Q" "GT" "LE" "GE" "NE" a b c
  /\ (c = Lt <-> before lex_lt eq a b)
  /\ (c = Eq <-> a = b)
  /\ (c = Gt <-> before lex_lt eq b a).
Proof. exact OrderProof.text_order. Qed.
Print Assumptions C58_text.

(** The same for the numeric comparisons, where Scalars are compared as
    numbers, and for the three-way comparison operator. *)
Theorem C58_number : forall fmt a b, alike a b -> exists c,
  answers fmt "<" "=" ">" "<=" ">=" "!=" a b c
  /\ run_op fmt "CM" [a; b]
     = ret (PScal match c with Lt => s_ "-1" | Eq => s_ "0" | Gt => s_ "1" end)
  /\ (c = Lt <-> before (fun s t => compares fmt s t Lt) (fun s t => compares fmt s t Eq) a b)
  /\ (c = Eq <-> same_items (fun s t => compares fmt s t Eq) a b)
  /\ (c = Gt <-> before (fun s t => compares fmt s t Lt) (fun s t => compares fmt s t Eq) b a).
Proof. exact OrderProof.number_order. Qed.
Print Assumptions C58_number.

Definition sc (t : string) : pval := PScal (s_ t).
Example C58_ex_alike :
  alike (PList [sc "a"; PList [sc "b"]]) (PList [sc "a"; PList [sc "b"; sc "a"]; sc "x"]).
Proof. repeat constructor. Qed.
Example C58_ex_before :
  before lex_lt eq (PList [sc "a"; PList [sc "b"]])
         (PList [sc "a"; PList [sc "b"; sc "a"]; sc "x"]).
Proof.
  apply before_list, before_later; [constructor; reflexivity|].
  apply before_here, before_list, before_later; [constructor; reflexivity|].
  apply before_end.
Qed.
Example C58_ex :
  run_op FmtNone "LT" [PList [sc "a"; PList [sc "b"]];
                       PList [sc "a"; PList [sc "b"; sc "a"]; sc "x"]] = ret (truth true)
  /\ run_op FmtNone "LT" [PList [sc "10"]; PList [sc "9"; sc "1"]] = ret (truth true)
  /\ run_op FmtNone "<" [PList [sc "10"]; PList [sc "9"; sc "1"]] = ret (truth false)
  /\ run_op FmtNone "=" [PList [sc "1.0"; PList []]; PList [sc "01"; PList []]]
     = ret (truth true).
Proof. repeat split; vm_compute; reflexivity. Qed.
