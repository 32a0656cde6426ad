(** * Control: short circuits, loops, history variables *)

From Coq Require Import String List NArith ZArith Bool Arith Lia.
From Verif Require Import PyStr PyRe PyNum Tokens OpFun OpTable Unparse
                          PTypes Ops OpsSeq Apply Spec StrFacts PFacts SeqProof ItemProof RunOp
                          Heap Exec SpecHeap HeapProof ExecRel ExecInv EvalProof
                          SpecScan SpecVars VarProof.
Import ListNotations.
Local Open Scope string_scope.
Local Open Scope list_scope.
Local Open Scope Z_scope.

(** ** Truth *)
Lemma counts_bool p b : counts p b <-> p_bool p = b.
Proof.
  unfold counts. assert (E : run_op FmtNone "!" [p] = ret (Spec.truth (negb (p_bool p)))).
  { destruct p; run_plain; unfold op_NOT, b2;
      match goal with |- context [negb ?x] => destruct x end; reflexivity. }
  rewrite E. split; [|intros ->; reflexivity].
  destruct (p_bool p), b; try reflexivity; discriminate.
Qed.
Lemma truth_ok v p s : den (st_heap s) v p -> truth v s = Ok (p_bool p) s.
Proof.
  intros D. inversion D; subst; clear D; cbn [truth p_bool].
  3: { unfold load_list, load, mbind.
    match goal with E : nth_error _ _ = _ |- _ => rewrite E end.
    match goal with E : dens _ _ _ |- _ => inversion E; subst end; reflexivity. }
  - unfold load_str, load, mbind.
    match goal with E : nth_error _ _ = _ |- _ => rewrite E end. reflexivity.
  - destruct r; reflexivity.
  - reflexivity.
  - match goal with E : dents _ _ _ |- _ => inversion E; subst end; [|reflexivity].
    match goal with E : dent _ _ _ |- _ => inversion E; subst end; try reflexivity.
    match goal with E : den _ _ _ |- _ => inversion E; subst end;
      reflexivity.
  - reflexivity.
Qed.

(** ** Operators that receive their operands unevaluated *)
Lemma evals_trees s o args r s' :
  plain_trees o = true ->
  evals s (TApp o args) r s' <->
  exists n, call_fun (run n) (o_fun o) (map ATree args) s = Ok r s'.
Proof.
  intros P. rewrite evals_app. split; intros [n E]; exists n.
  - rewrite eval_op_trees in E by exact P. apply (proj1 (catch_ok _ _ _ _)) in E. exact E.
  - rewrite eval_op_trees by exact P. apply (proj2 (catch_ok _ _ _ _)). exact E.
Qed.

Definition op_and : oper :=
  match op_by_arity 2 (s_ "&") with Some o => o | None => op_chain end.
Definition op_or : oper :=
  match op_by_arity 2 (s_ "|") with Some o => o | None => op_chain end.
Definition op_ifte : oper :=
  match op_by_arity 3 (s_ "?") with Some o => o | None => op_chain end.

Lemma gives_step n e s v s' : rval_tree (run n) e s = Ok v s' -> gives s e v s'.
Proof. intros E. exists n. exact E. Qed.

Section ShortCircuit.
  Variables (a b : tree hval) (s : state) (v : hval) (s1 : state) (p : pval).
  Hypothesis Ga : gives s a v s1.
  Hypothesis Dv : den (st_heap s1) v p.

  (** What AND and OR have in common: [stop] is the truth value that ends the
      evaluation. *)
  Lemma circuit_stop o (stop : bool) n :
    (forall R s0, call_fun R (o_fun o) [ATree a; ATree b] s0
       = (v <- rval_tree R a;; t <- truth v;;
          if eqb t stop then xret v else v' <- rval_tree R b;; xret v') s0) ->
    plain_trees o = true -> p_bool p = stop ->
    rval_tree (run n) a s = Ok v s1 ->
    rval_tree (run (S (S n))) (TApp o [a; b]) s = Ok v s1.
  Proof.
    intros H P B E. rewrite rval_tree_eq by discriminate.
    assert (E2 : i_eval (run (S (S n))) (TApp o [a; b]) s = Ok (XR v) s1).
    { rewrite eval_app_eq, eval_op_trees by exact P. cbn [map].
      apply (proj2 (catch_ok _ _ _ _)). rewrite H.
      rewrite (bind_step _ _ _ _ _ E), (bind_step _ _ _ _ _ (truth_ok _ _ _ Dv)), B.
      rewrite eqb_reflx. reflexivity. }
    rewrite (bind_step _ _ _ _ _ E2). reflexivity.
  Qed.
  Lemma circuit_go o (stop : bool) n :
    (forall R s0, call_fun R (o_fun o) [ATree a; ATree b] s0
       = (v <- rval_tree R a;; t <- truth v;;
          if eqb t stop then xret v else v' <- rval_tree R b;; xret v') s0) ->
    plain_trees o = true -> p_bool p = negb stop ->
    rval_tree (run n) a s = Ok v s1 ->
    rval_tree (run (S (S n))) (TApp o [a; b]) s = catch_type (rval_tree (run n) b) s1.
  Proof.
    intros H P B E. rewrite rval_tree_eq by discriminate.
    unfold mbind. rewrite eval_app_eq, eval_op_trees by exact P. cbn [map].
    unfold catch_type. rewrite H. rewrite (bind_step _ _ _ _ _ E), (bind_step _ _ _ _ _ (truth_ok _ _ _ Dv)), B.
    replace (eqb (negb stop) stop) with false by (destruct stop; reflexivity).
    unfold mbind. destruct (rval_tree (run n) b s1) as [w s2|e s2|]; try reflexivity.
    destruct e as [|[]|]; reflexivity.
  Qed.
End ShortCircuit.

Lemma and_fun a b R s :
  call_fun R (o_fun op_and) [ATree a; ATree b] s
  = (v <- rval_tree R a;; t <- truth v;;
     if eqb t false then xret v else v' <- rval_tree R b;; xret v') s.
Proof.
  change (call_fun R F_AND [ATree a; ATree b] s = (v <- rval_tree R a;; t <- truth v;;
     if eqb t false then xret v else v' <- rval_tree R b;; xret v') s).
  cbn [call_fun]. unfold mbind, rval_tree.
  destruct (rval_arg_h R (ATree a) s) as [v s1|e s1|]; try reflexivity.
  destruct (truth v s1) as [t s2|e s2|]; try reflexivity. destruct t; reflexivity.
Qed.
Lemma or_fun a b R s :
  call_fun R (o_fun op_or) [ATree a; ATree b] s
  = (v <- rval_tree R a;; t <- truth v;;
     if eqb t true then xret v else v' <- rval_tree R b;; xret v') s.
Proof.
  change (call_fun R F_OR [ATree a; ATree b] s = (v <- rval_tree R a;; t <- truth v;;
     if eqb t true then xret v else v' <- rval_tree R b;; xret v') s).
  cbn [call_fun]. unfold mbind, rval_tree.
  destruct (rval_arg_h R (ATree a) s) as [v s1|e s1|]; try reflexivity.
  destruct (truth v s1) as [t s2|e s2|]; try reflexivity. destruct t; reflexivity.
Qed.

Lemma more_max n m e s r :
  rval_tree (run n) e s = r -> r <> Fuel -> rval_tree (run (max n m)) e s = r.
Proof. intros. apply (more_rval n); [lia|assumption|assumption]. Qed.

Lemma continues_from s1 b s e k :
  (forall n, (k <= n)%nat ->
     rval_tree (run (S (S n))) e s = catch_type (rval_tree (run n) b) s1) ->
  continues s1 b s e.
Proof.
  intros H. split; [intros w s2; split|].
  - intros [n E]. exists (S (S (max n k))). rewrite H by lia.
    apply (proj2 (catch_ok _ _ _ _)). apply more_max; [exact E|discriminate].
  - intros [n E]. exists (max n k).
    apply (more_rval n (S (S (max n k)))) in E; [|lia|discriminate].
    rewrite H in E by lia. apply (proj1 (catch_ok _ _ _ _)) in E. exact E.
  - intros er s2 _ [n E]. exists (reported er). split.
    + exists (S (S (max n k))). rewrite H by lia.
      apply catch_err. apply more_max; [exact E|discriminate].
    + destruct er as [|[]|]; reflexivity.
Qed.

Theorem and_false a b s v s1 p :
  gives s a v s1 -> den (st_heap s1) v p -> p_bool p = false ->
  gives s (app "&" [a; b]) v s1.
Proof.
  intros [n E] D B. exists (S (S n)).
  exact (circuit_stop a b s v s1 p D op_and false n (and_fun a b) eq_refl B E).
Qed.
Theorem or_true a b s v s1 p :
  gives s a v s1 -> den (st_heap s1) v p -> p_bool p = true ->
  gives s (app "|" [a; b]) v s1.
Proof.
  intros [n E] D B. exists (S (S n)).
  exact (circuit_stop a b s v s1 p D op_or true n (or_fun a b) eq_refl B E).
Qed.
Theorem and_true a b s v s1 p :
  gives s a v s1 -> den (st_heap s1) v p -> p_bool p = true ->
  continues s1 b s (app "&" [a; b]).
Proof.
  intros [k E] D B. apply (continues_from _ _ _ _ k). intros n L.
  apply (circuit_go a b s v s1 p D op_and false n (and_fun a b) eq_refl B).
  apply (more_rval k); [exact L|exact E|discriminate].
Qed.
Theorem or_false a b s v s1 p :
  gives s a v s1 -> den (st_heap s1) v p -> p_bool p = false ->
  continues s1 b s (app "|" [a; b]).
Proof.
  intros [k E] D B. apply (continues_from _ _ _ _ k). intros n L.
  apply (circuit_go a b s v s1 p D op_or true n (or_fun a b) eq_refl B).
  apply (more_rval k); [exact L|exact E|discriminate].
Qed.

Lemma ifte_go a b c s v s1 p n :
  den (st_heap s1) v p -> rval_tree (run n) c s = Ok v s1 ->
  i_eval (run (S (S n))) (TApp op_ifte [c; a; b]) s
  = catch_type (i_eval (run n) (if p_bool p then a else b)) s1.
Proof.
  intros D E. rewrite eval_app_eq, eval_op_trees by reflexivity. cbn [map].
  change (call_fun (run n) (o_fun op_ifte) [ATree c; ATree a; ATree b])
    with (v <- rval_tree (run n) c;; t <- truth v;;
          if t then i_eval (run n) a else i_eval (run n) b).
  unfold catch_type. rewrite (bind_step _ _ _ _ _ E), (bind_step _ _ _ _ _ (truth_ok _ _ _ D)).
  destruct (p_bool p); reflexivity.
Qed.
Theorem ifte_branch a b c s v s1 p :
  gives s c v s1 -> den (st_heap s1) v p ->
  continues s1 (if p_bool p then a else b) s (app "?" [c; a; b]).
Proof.
  intros [k E] D. change (app "?" [c; a; b]) with (TApp op_ifte [c; a; b]).
  set (t := if p_bool p then a else b).
  assert (H : forall n, (k <= n)%nat ->
    i_eval (run (S (S n))) (TApp op_ifte [c; a; b]) s = catch_type (i_eval (run n) t) s1).
  { intros n L. apply (ifte_go a b c s v s1 p n D).
    apply (more_rval k); [exact L|exact E|discriminate]. }
  split; [intros w s2; split|].
  - intros G. apply gives_evals in G. destruct G as (x & s3 & [n E1] & E2).
    apply gives_evals. exists x, s3. split; [|exact E2]. exists (S (S (max n k))).
    rewrite H by lia. apply (proj2 (catch_ok _ _ _ _)).
    apply (more_eval n); [lia|exact E1|discriminate].
  - intros G. apply gives_evals in G. destruct G as (x & s3 & [n E1] & E2).
    apply gives_evals. exists x, s3. split; [|exact E2]. exists (max n k).
    apply (more_eval n (S (S (max n k)))) in E1; [|lia|discriminate].
    rewrite H in E1 by lia. apply (proj1 (catch_ok _ _ _ _)) in E1. exact E1.
  - intros er s2 N F.
    apply fails_evals in F; [|exact N]. destruct F as [[n E1]|(x & s3 & [n E1] & E2)].
    + exists (reported er). split; [|destruct er as [|[]|]; reflexivity].
      apply fails_evals; [discriminate|]. left. exists (S (S (max n k))).
      rewrite H by lia. apply catch_err.
      apply (more_eval n); [lia|exact E1|discriminate].
    + exists er. split; [|reflexivity].
      apply fails_evals; [discriminate|]. right. exists x, s3. split; [|exact E2].
      exists (S (S (max n k))). rewrite H by lia. apply (proj2 (catch_ok _ _ _ _)).
      apply (more_eval n); [lia|exact E1|discriminate].
Qed.
