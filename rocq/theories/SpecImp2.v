(** * Fibonacci's numbers, and programs that never end *)

From Coq Require Import String List NArith ZArith Bool.
From Verif Require Import PyStr Tokens OpFun OpTable Parse PTypes Heap Exec SpecVars SpecMap SpecFun SpecImp.
Import ListNotations.
Local Open Scope string_scope.
Local Open Scope list_scope.

(** 0, 1, and then each the sum of the two before it. *)
Fixpoint fib (n : nat) : Z :=
  match n with
  | O => 0
  | S m => match m with O => 1 | S k => fib m + fib k end
  end%Z.

(** Round after round, the condition counts as [sense] and the body is executed
    to its end. *)
CoInductive spins (F : pval) (sense : bool) (c : tree pval) (body : list (tree pval))
  : setting -> (N -> pval) -> Prop :=
| spins_on w L out w1 L1 p out' w2 L2 :
    evaluates F w L c out w1 L1 p -> counts p sense -> runs_all F w1 L1 body out' w2 L2 ->
    spins F sense c body w2 L2 -> spins F sense c body w L.

(** Statements that never end: loops that spin or get to a round that never
    ends, and conditionals whose chosen branch never ends. *)
Inductive hangs : pval -> setting -> (N -> pval) -> tree pval -> Prop :=
| hangs_loop F w L (sense : bool) c body :
    hangs_until F w L sense c body -> hangs F w L (pcmd (if sense then "W" else "T") [c; TBlk body])
| hangs_if F w L (t : bool) c yes no out w1 L1 p :
    evaluates F w L c out w1 L1 p -> counts p t -> hangs_all F w1 L1 (if t then yes else no) ->
    hangs F w L (pcmd "I" [c; TBlk yes; TBlk no])
with hangs_all : pval -> setting -> (N -> pval) -> list (tree pval) -> Prop :=
| hangs_now F w L t ts : hangs F w L t -> hangs_all F w L (t :: ts)
| hangs_later F w L t ts out w1 L1 :
    runs F w L t out w1 L1 -> hangs_all F w1 L1 ts -> hangs_all F w L (t :: ts)
with hangs_until : pval -> setting -> (N -> pval) -> bool -> tree pval -> list (tree pval) -> Prop :=
| until_spins F w L sense c body : spins F sense c body w L -> hangs_until F w L sense c body
| until_hangs F w L sense c body out w1 L1 p :
    evaluates F w L c out w1 L1 p -> counts p sense -> hangs_all F w1 L1 body ->
    hangs_until F w L sense c body
| until_later F w L sense c body out w1 L1 p out' w2 L2 :
    evaluates F w L c out w1 L1 p -> counts p sense -> runs_all F w1 L1 body out' w2 L2 ->
    hangs_until F w2 L2 sense c body -> hangs_until F w L sense c body.

(** The program does not end, neither regularly nor with an error, however long
    one waits. *)
Definition never_ends (fmt : ofmt) (warn_ : bool) (input : world) (text : string) (args : list str) : Prop :=
  forall n, run_text n fmt warn_ input (s_ text) args = Fuel.
