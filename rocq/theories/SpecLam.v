(** * Operators applied to functions: specification (execution.py:155-189)

    An operator one of whose operands is a function does not compute anything:
    it builds the function that computes the operands and then does the
    operation.  Here the function is described by what a call returns. *)

From Coq Require Import String List NArith ZArith Bool.
From Verif Require Import PyStr PyNum Tokens OpFun OpTable Unparse PTypes Ops Apply Heap Exec
                          SpecHeap SpecRun SpecVars SpecMap.
Import ListNotations.
Local Open Scope string_scope.
Local Open Scope list_scope.

(** The operators that build functions from functions. *)
Definition building_operator (text : string) (n : nat) : Prop :=
  exists o, op_by_arity n (s_ text) = Some o
    /\ o_assign o = false /\ o_map o = false /\ o_fold o = false /\ o_scan o = false
    /\ f_rvals (o_flags o) = true /\ f_in_lambda (o_flags o) = true.

(** The code of a function, and the code that stands for any other object:
    no statements and the object itself. *)
Definition code_stmts (v : hval) : list (tree hval) :=
  match v with HBlock sts _ => sts | _ => [] end.
Definition code_return (v : hval) : tree hval :=
  match v with HBlock _ r => r | _ => TVal v end.

(** [returns s args e p]: with the arguments [args], and the global variables
    as in [s], the expression [e] of a function has the value [p]. *)
Inductive returns (s : state) (args : list pval) : tree pval -> pval -> Prop :=
| returns_arg i c :
    nth_error (s_ "abcde") i = Some c ->
    returns s args (TTok (Tok KName [c])) (nth i args PNil)
| returns_args : returns s args (TTok (Tok KName (s_ "g"))) (PList args)
| returns_global x p :
    ordinary s x -> ~ is_local x -> var s x p -> returns s args (TTok (Tok KName x)) p
| returns_object p : returns s args (TVal p) p
| returns_literal k p :
    is_literal (t_kind k) = true -> t_kind k <> KName -> of_token k = Val p ->
    returns s args (TTok k) p
| returns_app text o es ps p :
    op_by_arity (length es) (s_ text) = Some o -> value_op o (length es) ->
    Forall2 (returns s args) es ps ->
    snd (run_op (st_fmt s) text ps) = Val p -> returns s args (TApp o es) p
| returns_parens e p : returns s args e p -> returns s args (TApp op_paren [e]) p
| returns_display es ps :
    Forall2 (returns s args) es ps -> returns s args (TApp op_enlist es) (PList ps).

(** What an operand stands for when the new function is called with [args]: a
    function without statements for what it returns, anything else for
    itself. *)
Inductive pointwise (s : state) (args : list pval) : pval -> pval -> Prop :=
| pointwise_function r q : returns s args r q -> pointwise s args (PBlock [] r) q
| pointwise_other p :
    (forall sts r, p <> PBlock sts r) -> pointwise s args p p.
