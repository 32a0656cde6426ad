(** * Specification vocabulary about running operators *)

From Coq Require Import String List NArith ZArith Bool.
From Verif Require Import PyStr PyNum Tokens PTypes Ops Apply Spec.
Import ListNotations.
Local Open Scope string_scope.
Local Open Scope list_scope.
Local Open Scope Z_scope.

(** ** Comparison *)

Definition lt_of (c : comparison) : bool := match c with Lt => true | _ => false end.
Definition eq_of (c : comparison) : bool := match c with Eq => true | _ => false end.
Definition gt_of (c : comparison) : bool := match c with Gt => true | _ => false end.

(** The numeric comparison operators on two Scalars all agree with [c]. *)
Definition compares (fmt : ofmt) (s t : str) (c : comparison) : Prop :=
  run_op fmt "<" [PScal s; PScal t] = ret (truth (lt_of c))
  /\ run_op fmt "=" [PScal s; PScal t] = ret (truth (eq_of c))
  /\ run_op fmt ">" [PScal s; PScal t] = ret (truth (gt_of c))
  /\ run_op fmt "<=" [PScal s; PScal t] = ret (truth (lt_of c || eq_of c))
  /\ run_op fmt ">=" [PScal s; PScal t] = ret (truth (negb (lt_of c)))
  /\ run_op fmt "!=" [PScal s; PScal t] = ret (truth (negb (eq_of c)))
  /\ run_op fmt "CM" [PScal s; PScal t]
     = ret (PScal match c with Lt => s_ "-1" | Eq => s_ "0" | Gt => s_ "1" end).

(** One three-way answer [c] accounts for six comparison operators. *)
Definition answers (fmt : ofmt) (lt eq gt le ge ne : string) (x y : pval)
    (c : comparison) : Prop :=
  run_op fmt lt [x; y] = ret (truth (lt_of c))
  /\ run_op fmt eq [x; y] = ret (truth (eq_of c))
  /\ run_op fmt gt [x; y] = ret (truth (gt_of c))
  /\ run_op fmt le [x; y] = ret (truth (negb (gt_of c)))
  /\ run_op fmt ge [x; y] = ret (truth (negb (lt_of c)))
  /\ run_op fmt ne [x; y] = ret (truth (negb (eq_of c))).

(** The operator answers true. *)
Definition holds (fmt : ofmt) (text : string) (x y : pval) : Prop :=
  run_op fmt text [x; y] = ret (truth true).

Definition not_block (v : pval) : bool :=
  match v with PBlock _ _ => false | _ => true end.

(** ** Ranges and numerals *)

(** [z] is one of the integers of the Range. *)
Definition range_elem (lo hi : option Z) (z : Z) : Prop :=
  range_start lo <= z /\ match hi with Some u => z < u | None => True end.

(** A numeral with a decimal fraction. *)
Definition with_fraction (neg : bool) (ds fs : list N) : str :=
  numeral neg ds ++ [46%N] ++ map (fun d => (48 + d)%N) fs.

(** Digits below the base, at least one, no leading zero except in "0". *)
Definition canonical_in (b : Z) (ds : list N) : Prop :=
  ds <> [] /\ Forall (fun d => Z.of_N d < b) ds /\ (hd 0%N ds = 0%N -> ds = [0%N]).


(** Running [f] over the items in order: warnings accumulate, the first
    exception stops the run. *)
Inductive each_run {A} (f : A -> pm pval) : list A -> list warning * res (list pval) -> Prop :=
| each_nil : each_run f [] ([], Val [])
| each_fail : forall x l w e, f x = (w, Exn e) -> each_run f (x :: l) (w, Exn e)
| each_ok : forall x l w v ws r, f x = (w, Val v) -> each_run f l (ws, r) ->
    each_run f (x :: l) (w ++ ws, match r with Val vs => Val (v :: vs) | Exn e => Exn e end).

(** The outcome as a List value, with [extra] items after the results. *)
Definition listed (extra : list pval) (out : list warning * res (list pval)) : pm pval :=
  (fst out, match snd out with Val vs => Val (PList (vs ++ extra)) | Exn e => Exn e end).

(** Operator [o] is applied item by item to [v]. *)
Definition itemwise (o : oper) (v : pval) : bool :=
  match v with
  | PList _ => f_list_each (o_flags o)
  | PRange _ _ => f_range_each (o_flags o)
  | _ => false
  end.
