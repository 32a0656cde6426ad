(** * Compute-and-assign and mapped operators: specification
    (execution.py:113-121, 629-655; parsing.py:144-147, 283-309) *)

From Coq Require Import String List NArith ZArith Bool.
From Verif Require Import PyStr PyNum Tokens OpFun OpTable Parse Unparse PTypes Ops Apply
                          Spec Heap Exec SpecHeap SpecVars.
Import ListNotations.
Local Open Scope string_scope.
Local Open Scope list_scope.
Local Open Scope Z_scope.

(** [x o: e ...] (for a unary operator [o: x]).  The parser gives the copy of
    the operator a precedence [k] and an associativity [a]; these have no
    effect on the evaluation. *)
Definition assigning (o : oper) (k : Z) (a : assoc) (x : str) (es : list (tree hval)) : tree hval :=
  TApp (op_set_assign o k a) (name x :: es).
(** The operator with that precedence and associativity. *)
Definition tuned (o : oper) (k : Z) (a : assoc) : oper :=
  mkoper (o_text o) (o_fun o) (o_arity o) k a (o_default o) (o_flags o)
         (o_assign o) (o_map o) (o_fold o) (o_scan o).
(** [x : (x o e ...)]. *)
Definition spelled_out (o : oper) (k : Z) (a : assoc) (x : str) (es : list (tree hval)) : tree hval :=
  app ":" [name x; TApp (tuned o k a) (name x :: es)].

(** An operator of the table, or a fold, scan or map made from one. *)
Inductive any_operator : oper -> nat -> Prop :=
| any_plain text n o : op_by_arity n (s_ text) = Some o -> any_operator o n
| any_fold text o : op_by_arity 2 (s_ text) = Some o -> any_operator (op_set_fold o) 1
| any_scan text o : op_by_arity 2 (s_ text) = Some o -> any_operator (op_set_scan o) 1
| any_map o n : any_operator o n -> any_operator (op_set_map o) n.

(** [o* e]. *)
Definition mapped (o : oper) (e : tree hval) : tree hval := TApp (op_set_map o) [e].
