(** * Programs that swap and count: proofs *)

From Coq Require Import String List NArith ZArith Bool Arith Lia.
From Verif Require Import PyStr PyRe PyNum Tokens Scan OpFun OpTable Parse Unparse
                          PTypes Ops OpsSeq Apply Spec StrFacts PFacts RunOp
                          Heap Exec SpecHeap HeapProof ExecRel ExecInv EvalProof
                          SpecScan SpecRun SpecVars VarProof CtlProof PureProof LoopProof SpecMain SpecMap MapProof
                          SpecAlias FilterProof SpecMeta MetaProof SpecLam LamProof SpecRec RecProof
                          StandProof SpecFun FunProof FunProof2 SpecImp SpecImp2 ImpProof ImpProof2 ImpProof3.
Import ListNotations.
Local Open Scope string_scope.
Local Open Scope list_scope.

Lemma start_o fmt : w_var (start_setting fmt) (s_ "o") (scal_Z 1).
Proof. vm_compute. reflexivity. Qed.

(** ** Fibonacci's numbers *)
Definition fib_body : list (tree pval) :=
  [adding "o" (pname (s_ "i")); papp "::" [pname (s_ "i"); pname (s_ "o")]].
Definition fib_program : pval :=
  PBlock [pcmd "L" [pname (s_ "a"); TBlk fib_body]] (pname (s_ "i")).
Lemma fib_text : program_of "La{o+:i i::o}i" fib_program.
Proof. program. Qed.
Lemma fib_next n : fib (S (S n)) = (fib (S n) + fib n)%Z.
Proof. reflexivity. Qed.
Lemma fib_loop F L : forall m n w,
  w_var w (s_ "i") (scal_Z (fib n)) -> w_var w (s_ "o") (scal_Z (fib (S n) - fib n)) ->
  exists w', runs_times F w L fib_body m [] w' L /\ w_var w' (s_ "i") (scal_Z (fib (n + m))).
Proof.
  induction m as [|m IH]; intros n w Hi Ho.
  - exists w. split; [constructor|]. rewrite Nat.add_0_r. exact Hi.
  - set (w1 := know (s_ "o") (scal_Z (fib (S n))) w).
    set (w2 := know (s_ "i") (scal_Z (fib (S n))) w1).
    set (w3 := know (s_ "o") (scal_Z (fib n)) w2).
    destruct (IH (S n) w3) as (w' & R & E).
    { apply know_other; [discriminate|]. left. split; reflexivity. }
    { left. split; [reflexivity|]. f_equal. rewrite fib_next. lia. }
    exists w'. split; [|rewrite <- Nat.add_succ_comm; exact E].
    eapply (times_more F w L _ m [] w3 L []); [|exact R].
    eapply run_first; [|apply run_last].
    + eapply runs_expression. apply (run_adding F w L 111%N (pname (s_ "i")) (fib (S n) - fib n) (fib n) w1 L).
      * apply hv_global. exact Ho.
      * apply hv_global. exact Hi.
      * replace (fib (S n) - fib n + fib n)%Z with (fib (S n)) by lia. apply sets_global. plain_one.
    + eapply runs_expression.
      apply (evaluates_swap F w1 L (s_ "i") (s_ "o") (scal_Z (fib n)) (scal_Z (fib (S n))) w2 L w3 L).
      * discriminate.
      * apply hv_global. apply know_other; [discriminate|exact Hi].
      * apply know_self.
      * apply sets_global. plain_one.
      * apply sets_global. plain_one.
Qed.
Theorem fib_invoked w n : w_var w (s_ "i") (scal_Z 0) -> w_var w (s_ "o") (scal_Z 1) ->
  exists w', invokes w fib_program [scal_Z n] [] w' (scal_Z (fib (Z.to_nat n))).
Proof.
  intros Hi Ho. set (L := bound fib_program [scal_Z n]).
  destruct (fib_loop fib_program L (Z.to_nat n) 0 w Hi Ho) as (w' & R & E).
  exists w'. apply (invokes_function w _ _ _ [] w' L [] w' L).
  - apply run_last. apply (runs_loop _ w L _ _ [] w L (scal_Z n) (Z.to_nat n) []); [| |exact R].
    + apply evaluates_value. apply (letter _ _ _ 97%N _ ltac:(letters)). reflexivity.
    + apply int_repetitions.
  - apply evaluates_value. apply hv_global. exact E.
Qed.
Theorem fib_prints fmt wn input n :
  prints fmt wn input "La{o+:i i::o}i" [str_of_Z n] (str_of_Z (fib (Z.to_nat n)) ++ [10%N]).
Proof.
  destruct (fib_invoked (start_setting fmt) n (start_i fmt) (start_o fmt)) as [w' Iv].
  rewrite <- (line_int fmt). exact (program_runs _ fmt wn input [str_of_Z n] _ [] w' _ fib_text Iv).
Qed.

(** ** Powers *)
Definition times : oper := Eval vm_compute in
  match op_by_arity 2 (s_ "*") with Some o => o | None => op_chain end.
Definition power_body : list (tree pval) :=
  [TApp (op_set_assign times (o_prec assign_op) (o_assoc assign_op)) [pname (s_ "o"); pname (s_ "a")]].
Definition power_program : pval :=
  PBlock [pcmd "L" [pname (s_ "b"); TBlk power_body]] (pname (s_ "o")).
Lemma power_text : program_of "Lb{o*:a}o" power_program.
Proof. program. Qed.
Lemma power_loop F L x : L 97%N = scal_Z x -> forall m z w, w_var w (s_ "o") (scal_Z z) ->
  exists w', runs_times F w L power_body m [] w' L /\ w_var w' (s_ "o") (scal_Z (z * x ^ Z.of_nat m)%Z).
Proof.
  intros La. induction m as [|m IH]; intros z w Ho.
  - exists w. split; [constructor|]. cbn [Z.of_nat]. rewrite Z.pow_0_r, Z.mul_1_r. exact Ho.
  - set (w1 := know (s_ "o") (scal_Z (z * x)) w).
    destruct (IH (z * x)%Z w1) as (w' & R & E); [left; split; reflexivity|].
    exists w'. split.
    + eapply (times_more F w L _ m [] w1 L []); [|exact R]. apply run_last. eapply runs_expression.
      apply (evaluates_update F w L "*" times _ _ (s_ "o") [pname (s_ "a")] (scal_Z z) [scal_Z x] (scal_Z (z * x))).
      * vm_compute. reflexivity.
      * constructor; reflexivity.
      * constructor; [apply hv_global; exact Ho|].
        constructor; [exact (letter w F L 97%N _ ltac:(letters) La)|constructor].
      * reflexivity.
      * rewrite run_times. reflexivity.
      * apply sets_global. plain_one.
    + rewrite Nat2Z.inj_succ, Z.pow_succ_r by lia. rewrite Z.mul_assoc. exact E.
Qed.
Theorem power_invoked w x n : (0 <= n)%Z -> w_var w (s_ "o") (scal_Z 1) ->
  exists w', invokes w power_program [scal_Z x; scal_Z n] [] w' (scal_Z (x ^ n)).
Proof.
  intros Hn Ho. set (L := bound power_program [scal_Z x; scal_Z n]).
  destruct (power_loop power_program L x eq_refl (Z.to_nat n) 1 w Ho) as (w' & R & E).
  exists w'. apply (invokes_function w _ _ _ [] w' L [] w' L).
  - apply run_last. apply (runs_loop _ w L _ _ [] w L (scal_Z n) (Z.to_nat n) []); [| |exact R].
    + apply evaluates_value. apply (letter _ _ _ 98%N _ ltac:(letters)). reflexivity.
    + apply int_repetitions.
  - apply evaluates_value. apply hv_global. rewrite Z2Nat.id, Z.mul_1_l in E by exact Hn. exact E.
Qed.
Theorem power_prints fmt wn input x n : (0 <= n)%Z ->
  prints fmt wn input "Lb{o*:a}o" [str_of_Z x; str_of_Z n] (str_of_Z (x ^ n) ++ [10%N]).
Proof.
  intros Hn. destruct (power_invoked (start_setting fmt) x n Hn (start_o fmt)) as [w' Iv].
  rewrite <- (line_int fmt).
  exact (program_runs _ fmt wn input [str_of_Z x; str_of_Z n] _ [] w' _ power_text Iv).
Qed.

(** ** Counting down *)
Definition down_body : list (tree pval) := [papp "P" [pname (s_ "a")]; papp "D" [pname (s_ "a")]].
Definition down_program : pval :=
  PBlock [pcmd "W" [pname (s_ "a"); TBlk down_body]] (TVal PNil).
Lemma down_text : program_of "Wa{PaDa}" down_program.
Proof. program. Qed.
Lemma down_loop F w : w_one w -> forall m L, L 97%N = scal_Z (Z.of_nat m) ->
  exists L', runs_until F w L true (pname (s_ "a")) down_body (lines (-1) (Z.of_nat m) m) w L'.
Proof.
  intros One. induction m as [|m IH]; intros L La; pose proof (letter w F L 97%N _ ltac:(letters) La) as Va.
  - exists L. eapply until_stop; [apply evaluates_value; exact Va|exact (counts_int 0)].
  - set (L1 := put 97%N (scal_Z (Z.of_nat m)) L).
    destruct (IH L1 eq_refl) as (L' & R). exists L'.
    replace (lines (-1) (Z.of_nat (S m)) (S m))
      with ([] ++ ((str_of_Z (Z.of_nat (S m)) ++ [10%N]) ++ []) ++ lines (-1) (Z.of_nat m) m).
    2: { cbn [lines List.app]. rewrite app_nil_r, <- app_assoc.
         replace (Z.of_nat (S m) + -1)%Z with (Z.of_nat m) by lia. reflexivity. }
    apply (until_again F w L true _ _ [] w L (scal_Z (Z.of_nat (S m))) _ w L1 _ w L').
    + apply evaluates_value. exact Va.
    + pose proof (counts_int (Z.of_nat (S m))) as C. destruct (Z.eqb_spec (Z.of_nat (S m)) 0); [lia|exact C].
    + eapply runs_cons; [|apply run_last].
      * apply (runs_expression _ w L _ _ w L (scal_Z (Z.of_nat (S m)))). rewrite <- (line_int (w_fmt w)).
        change (evaluates F w L (papp "P" [pname (s_ "a")])
                 ([] ++ shown_line (w_fmt w) (scal_Z (Z.of_nat (S m)))) w L (scal_Z (Z.of_nat (S m)))).
        apply evaluates_print. apply evaluates_value. exact Va.
      * eapply runs_expression.
        apply (evaluates_step F w L "D" "-" (s_ "a") (scal_Z (Z.of_nat (S m))) (scal_Z (Z.of_nat m))).
        -- cbn. tauto.
        -- exact One.
        -- exact Va.
        -- reflexivity.
        -- rewrite run_minus. cbn [ret snd]. f_equal. f_equal. lia.
        -- eapply (sets_local (s_ "a") _ w L 97%N); [letters|reflexivity].
    + exact R.
Qed.
Theorem down_prints fmt wn input n : (0 <= n)%Z ->
  prints fmt wn input "Wa{PaDa}" [str_of_Z n] (lines (-1) n (Z.to_nat n)).
Proof.
  intros Hn. set (w := start_setting fmt).
  destruct (down_loop down_program w I (Z.to_nat n) (bound down_program [scal_Z n])) as (L' & R).
  { rewrite Z2Nat.id by exact Hn. reflexivity. }
  rewrite Z2Nat.id in R by exact Hn.
  assert (Iv : invokes w down_program [scal_Z n] (lines (-1) n (Z.to_nat n) ++ []) w PNil).
  { apply (invokes_function w _ _ _ _ w L' [] w L').
    - apply run_last. apply runs_while. exact R.
    - apply evaluates_value. apply hv_object. }
  rewrite app_nil_r in Iv.
  pose proof (program_runs _ fmt wn input [str_of_Z n] _ _ w _ down_text Iv) as P.
  cbn [shown_line] in P. rewrite app_nil_r in P. exact P.
Qed.
