(** * Properties C92-C94: operators on functions, compute-and-assign, mapped operators *)

From Coq Require Import String List NArith ZArith Bool Arith Lia.
From Verif Require Import PyStr PyNum Tokens OpFun OpTable Parse Unparse PTypes Ops Apply Spec Heap Exec
                          SpecHeap SpecExec SpecScan SpecMain SpecRun SpecVars SpecMap SpecMeta
                          SpecLam SpecAug PropExec.
From Verif Require LamProof AugProof.
Import ListNotations.
Local Open Scope string_scope.
Local Open Scope list_scope.
Local Open Scope Z_scope.

(** ** C92: operators on functions *)

(** The function that is built: the statements of the operands that are
    functions, in order, then the operation on what these return and on the
    other operands.  What a call of it does is C63. *)
Theorem C92_code : forall text es s vs s1,
  building_operator text (length es) -> operands s es vs s1 -> Exists is_function vs ->
  gives s (app text es) (HBlock (flat_map code_stmts vs) (app text (map code_return vs))) s1.
Proof. exact LamProof.builds_code. Qed.
Print Assumptions C92_code.

(** A function without statements computes its expression. *)
Theorem C92_call : forall s f r,
  den (st_heap s) f (PBlock [] r) -> computes s f (fun args p => returns s args r p).
Proof. exact LamProof.function_returns. Qed.
Print Assumptions C92_call.

(** The function built from functions without statements and other values
    computes the operation on the results of the functions and these values:
    (f+g)(x) is f(x)+g(x), (f+1)(x) is f(x)+1. *)
Theorem C92_pointwise : forall text es s vs s1 ps,
  building_operator text (length es) -> value_operator text (length es) ->
  operands s es vs s1 -> dens (st_heap s1) vs ps -> Exists is_function vs ->
  Forall (fun p => forall sts r, p = PBlock sts r -> sts = []) ps ->
  exists f, gives s (app text es) f s1 /\ is_function f /\
    computes s1 f (fun args q => exists qs, Forall2 (pointwise s1 args) ps qs
                                  /\ snd (run_op (st_fmt s1) text qs) = Val q).
Proof. exact LamProof.builds_pointwise. Qed.
Print Assumptions C92_pointwise.

(** How many operators of the table do this. *)
Definition is_building (o : oper) : bool :=
  negb (o_assign o) && negb (o_map o) && negb (o_fold o) && negb (o_scan o)
  && f_rvals (o_flags o) && f_in_lambda (o_flags o).
Example C92_count :
  (length (filter is_building all_ops),
   length (filter (fun o => is_building o && value_fun (o_fun o) (o_arity o)) all_ops),
   length all_ops) = (173, 164, 234)%nat.
Proof. vm_compute. reflexivity. Qed.
(** a*b+3 *)
Definition C92_tree : tree pval :=
  match op_by_arity 2 (s_ "+"), op_by_arity 2 (s_ "*") with
  | Some p, Some m => TApp p [TApp m [name_tree (s_ "a"); name_tree (s_ "b")]; TTok (Tok KNumber (s_ "3"))]
  | _, _ => TBlk []
  end.
Example C92_case : forall s, st_fmt s = FmtNone ->
  returns s [PScal (s_ "4"); PScal (s_ "5")] C92_tree (PScal (s_ "23")).
Proof.
  intros s F. unfold C92_tree.
  eapply (returns_app s _ "+" _ _ [PScal (s_ "20"); PScal (s_ "3")]).
  - vm_compute. reflexivity.
  - constructor; reflexivity.
  - constructor; [|constructor; [|constructor]].
    + eapply (returns_app s _ "*" _ _ [PScal (s_ "4"); PScal (s_ "5")]).
      * vm_compute. reflexivity.
      * constructor; reflexivity.
      * constructor; [|constructor; [|constructor]].
        -- exact (returns_arg s [PScal (s_ "4"); PScal (s_ "5")] 0 _ eq_refl).
        -- exact (returns_arg s [PScal (s_ "4"); PScal (s_ "5")] 1 _ eq_refl).
      * rewrite F. vm_compute. reflexivity.
    + apply returns_literal; [reflexivity|discriminate|reflexivity].
  - rewrite F. vm_compute. reflexivity.
Qed.
Example C92_ex :
  output_of "O (_*_+1)M[1;2;3] O '/ x:_+{b} y:x*x O (y 3 4) O '/ x:9 O (y 1 2) z:5 w:z+{g.z} O '/ O (w 1 2) z:7 O '/ (w 1)" []
  = Some (s_ "2510/49/9/2030/22" ++ [10%N]).
Proof. vm_compute. reflexivity. Qed.
Example C92_statements : output_of "f:{O 1 a+1} z:{O 2 a*2} h:f.z (h 5)" []
  = Some (s_ "12610" ++ [10%N]).
Proof. vm_compute. reflexivity. Qed.

(** ** C93: compute-and-assign *)

(** [x o: e] is the same as [x : (x o e)], for every operator, also for folds,
    scans and mapped operators. *)
Theorem C93_same : forall o k a x es s v s',
  ordinary s x -> any_operator o (S (length es)) ->
  gives s (assigning o k a x es) v s' <-> gives s (spelled_out o k a x es) v s'.
Proof. exact AugProof.assigning_same. Qed.
Print Assumptions C93_same.

(** On values: the variable then has the result, no other variable changes. *)
Theorem C93_value : forall text o k a x es s p qs r,
  op_by_arity (S (length es)) (s_ text) = Some o -> value_op o (S (length es)) ->
  ordinary s x -> st_scopes s <> [] -> var s x p -> Forall2 (means s) es qs ->
  forallb plain (p :: qs) = true -> snd (run_op (st_fmt s) text (p :: qs)) = Val r ->
  exists w s', gives s (assigning o k a x es) w s' /\ den (st_heap s') w r /\ var s' x r /\
    changes_only x s s' /\ st_scopes s' <> [].
Proof. exact AugProof.assigning_value. Qed.
Print Assumptions C93_value.

Example C93_operators : Forall (fun p => exists o, op_by_arity (snd p) (s_ (fst p)) = Some o /\ value_op o (snd p))
  [("+", 2); ("//", 2); ("^", 1); ("SN", 1); (".", 2); ("TR", 3)]%nat.
Proof. repeat (constructor; [eexists; split; [vm_compute; reflexivity|constructor; reflexivity]|]). constructor. Qed.
Example C93_ex :
  output_of "x:[3;1;2] x+:4 O x O '/ SN:x O x O '/ $+:x O x O '/ x.:""a"" O x O '/ x&:""bcd"" UC*:x x" []
  = Some (s_ "756/567/18/18a/BCD" ++ [10%N]).
Proof. vm_compute. reflexivity. Qed.

(** ** C94: mapped operators *)

(** [o* e] is the List of what the operator gives for each item. *)
Theorem C94_mapped : forall text o s e v s1 p l rs,
  op_by_arity 1 (s_ text) = Some o -> value_op o 1 ->
  gives s e v s1 -> den (st_heap s1) v p -> elems p l ->
  Forall2 (fun q r => snd (run_op (st_fmt s1) text [q]) = Val r) l rs ->
  exists w s', gives s (mapped o e) w s' /\ den (st_heap s') w (PList rs) /\ only_adds s1 s'.
Proof. exact AugProof.mapped_value. Qed.
Print Assumptions C94_mapped.

Example C94_case :
  (exists o, op_by_arity 1 (s_ "#") = Some o /\ value_op o 1) /\
  Forall2 (fun q r => snd (run_op FmtNone "#" [q]) = Val r)
    [PScal (s_ "abc"); PList []; PScal (s_ "x")] [PScal (s_ "3"); PScal (s_ "0"); PScal (s_ "1")].
Proof.
  split; [eexists; split; [vm_compute; reflexivity|constructor; reflexivity]|].
  repeat constructor.
Qed.
Example C94_ex : output_of "O #*[""abc"";[];'x] O '/ O -*(3,6) O '/ A*""Az""" []
  = Some (s_ "301/-3-4-5/65122" ++ [10%N]).
Proof. vm_compute. reflexivity. Qed.
