(** * Programs whose loops are ended by comparisons: proofs *)

From Coq Require Import String List NArith ZArith Bool Arith Lia.
From Verif Require Import PyStr PyRe PyNum Tokens Scan OpFun OpTable Parse Unparse
                          PTypes Ops OpsSeq Apply Spec StrFacts PFacts RunOp
                          Heap Exec SpecHeap HeapProof ExecRel ExecInv EvalProof
                          SpecScan SpecRun SpecVars VarProof CtlProof PureProof LoopProof SpecMain SpecMap MapProof
                          SpecAlias FilterProof SpecMeta MetaProof SpecLam LamProof SpecRec RecProof
                          StandProof SpecFun FunProof FunProof2 SpecImp SpecImp2 ImpProof ImpProof2 ImpProof3 ImpProof6.
Import ListNotations.
Local Open Scope string_scope.
Local Open Scope list_scope.

Lemma is_less : Forall comparison [less].
Proof. constructor; [|constructor]. exists (s_ "<"). split; [vm_compute; reflexivity|]. split; [reflexivity|discriminate]. Qed.
Lemma compare_less fmt x y : chain_result fmt (scal_Z x) (combine [less] [scal_Z y]) (Spec.truth (x <? y)%Z).
Proof.
  cbn [combine]. apply chain_last. pose proof (run_less fmt x y) as R. unfold run_op in R. cbn [length] in R.
  assert (Q : op_by_arity 2 (s_ "<") = Some less) by (vm_compute; reflexivity).
  rewrite Q in R. rewrite R. reflexivity.
Qed.
Lemma up_i F w L z : w_one w -> w_var w (s_ "i") (scal_Z z) ->
  evaluates F w L (papp "U" [pname (s_ "i")]) [] (know (s_ "i") (scal_Z (z + 1)) w) L (scal_Z (z + 1)).
Proof.
  intros One Hi. apply (evaluates_step F w L "U" "+" (s_ "i") (scal_Z z) (scal_Z (z + 1))).
  - cbn. tauto.
  - exact One.
  - apply hv_global. exact Hi.
  - reflexivity.
  - rewrite run_plus. reflexivity.
  - apply sets_global. plain_one.
Qed.

(** ** A condition that counts *)
Definition below : tree pval := pchain (papp "U" [pname (s_ "i")]) [(less, pname (s_ "a"))].
Definition below_body : list (tree pval) := [papp "P" [pname (s_ "i")]].
Definition below_program : pval := PBlock [pcmd "W" [below; TBlk below_body]] (TVal PNil).
Lemma below_text : program_of "W Ui<a{Pi}" below_program.
Proof. program. Qed.
Lemma below_test F w L n z : w_one w -> L 97%N = scal_Z n -> w_var w (s_ "i") (scal_Z z) ->
  evaluates F w L below [] (know (s_ "i") (scal_Z (z + 1)) w) L (Spec.truth (z + 1 <? n)%Z).
Proof.
  intros One La Hi.
  apply (evaluates_compare F w L _ [(less, pname (s_ "a"))] [] _ L (scal_Z (z + 1)) [scal_Z n]).
  - discriminate.
  - exact is_less.
  - apply (evaluates_more F w L _ _ [] (know (s_ "i") (scal_Z (z + 1)) w) L _ []).
    + apply up_i; assumption.
    + apply (evaluates_more F _ L _ _ [] (know (s_ "i") (scal_Z (z + 1)) w) L _ []); [|constructor].
      apply evaluates_value. exact (letter _ F L 97%N _ ltac:(letters) La).
  - repeat constructor.
  - apply compare_less.
Qed.
Lemma below_loop F L n : L 97%N = scal_Z n -> forall m z w, w_one w -> Z.to_nat (n - (z + 1)) = m ->
  w_var w (s_ "i") (scal_Z z) ->
  exists w', runs_until F w L true below below_body (lines 1 (z + 1) m) w' L.
Proof.
  intros La. induction m as [|m IH]; intros z w One Hm Hi.
  - eexists. eapply until_stop; [apply (below_test F w L n z One La Hi)|].
    destruct (Z.ltb_spec (z + 1) n); [lia|]. apply (counts_truth false).
  - set (w1 := know (s_ "i") (scal_Z (z + 1)) w).
    destruct (IH (z + 1)%Z w1 One ltac:(lia)) as (w' & R); [left; split; reflexivity|].
    exists w'.
    replace (lines 1 (z + 1) (S m)) with ([] ++ ([] ++ shown_line (w_fmt w1) (scal_Z (z + 1))) ++ lines 1 (z + 1 + 1) m).
    2: { rewrite line_int. cbn [lines List.app]. rewrite <- app_assoc. reflexivity. }
    apply (until_again F w L true _ _ [] w1 L (Spec.truth (z + 1 <? n)%Z) _ w1 L _ w' L).
    + apply below_test; assumption.
    + destruct (Z.ltb_spec (z + 1) n); [apply (counts_truth true)|lia].
    + apply run_last. eapply runs_expression. apply evaluates_print. apply evaluates_value. apply know_self.
    + exact R.
Qed.
Theorem below_prints fmt wn input n :
  prints fmt wn input "W Ui<a{Pi}" [str_of_Z n] (lines 1 1 (Z.to_nat (n - 1))).
Proof.
  set (w := start_setting fmt). set (L := bound below_program [scal_Z n]).
  destruct (below_loop below_program L n eq_refl (Z.to_nat (n - 1)) 0%Z w I eq_refl (start_i fmt)) as (w' & R).
  assert (Iv : invokes w below_program [scal_Z n] (lines 1 1 (Z.to_nat (n - 1)) ++ []) w' PNil).
  { apply (invokes_function w _ _ _ _ w' L [] w' L).
    - apply run_last. apply runs_while. exact R.
    - apply evaluates_value. apply hv_object. }
  rewrite app_nil_r in Iv.
  pose proof (program_runs _ fmt wn input [str_of_Z n] _ _ w' _ below_text Iv) as P.
  cbn [shown_line] in P. rewrite app_nil_r in P. exact P.
Qed.

(** ** Square roots *)
Definition over : tree pval := pchain (pname (s_ "a")) [(less, papp "*" [pname (s_ "i"); pname (s_ "i")])].
Definition root_body : list (tree pval) := [papp "U" [pname (s_ "i")]].
Definition root_program : pval :=
  PBlock [pcmd "T" [over; TBlk root_body]] (papp "-" [pname (s_ "i"); TTok (Tok KNumber (s_ "1"))]).
Lemma root_text : program_of "Ta<i*i{Ui}i-1" root_program.
Proof. program. Qed.
Lemma root_test F w L n z : L 97%N = scal_Z n -> w_var w (s_ "i") (scal_Z z) ->
  evaluates F w L over [] w L (Spec.truth (n <? z * z)%Z).
Proof.
  intros La Hi. apply evaluates_value. apply less_than; [exact (letter _ F L 97%N _ ltac:(letters) La)|].
  apply (hv_app w _ _ "*" _ [scal_Z z; scal_Z z]); [operator| |rewrite run_times; reflexivity].
  constructor; [apply hv_global; exact Hi|]. constructor; [apply hv_global; exact Hi|constructor].
Qed.
Lemma root_loop F L n : (0 <= n)%Z -> L 97%N = scal_Z n -> forall m z w, w_one w ->
  (0 <= z)%Z -> (z + Z.of_nat m = Z.sqrt n + 1)%Z -> w_var w (s_ "i") (scal_Z z) ->
  exists w', runs_until F w L false over root_body [] w' L /\ w_var w' (s_ "i") (scal_Z (Z.sqrt n + 1)).
Proof.
  intros Hn La. pose proof (Z.sqrt_spec n Hn) as [S1 S2].
  induction m as [|m IH]; intros z w One Hz Hm Hi.
  - replace z with (Z.sqrt n + 1)%Z in * by lia. exists w. split; [|exact Hi].
    eapply until_stop; [apply (root_test F w L n _ La Hi)|].
    destruct (Z.ltb_spec n ((Z.sqrt n + 1) * (Z.sqrt n + 1))); [apply (counts_truth true)|lia].
  - set (w1 := know (s_ "i") (scal_Z (z + 1)) w).
    destruct (IH (z + 1)%Z w1 One ltac:(lia) ltac:(lia)) as (w' & R & E); [left; split; reflexivity|].
    exists w'. split; [|exact E].
    apply (until_again F w L false _ _ [] w L (Spec.truth (n <? z * z)%Z) [] w1 L [] w' L).
    + apply root_test; assumption.
    + destruct (Z.ltb_spec n (z * z)); [|apply (counts_truth false)].
      assert (z * z <= Z.sqrt n * Z.sqrt n)%Z by (apply Z.mul_le_mono_nonneg; lia). lia.
    + apply run_last. eapply runs_expression. apply up_i; assumption.
    + exact R.
Qed.
Theorem root_prints fmt wn input n : (0 <= n)%Z ->
  prints fmt wn input "Ta<i*i{Ui}i-1" [str_of_Z n] (str_of_Z (Z.sqrt n) ++ [10%N]).
Proof.
  intros Hn. set (w := start_setting fmt). set (L := bound root_program [scal_Z n]).
  pose proof (Z.sqrt_nonneg n) as Sn.
  destruct (root_loop root_program L n Hn eq_refl (Z.to_nat (Z.sqrt n + 1)) 0%Z w I ltac:(lia) ltac:(lia) (start_i fmt))
    as (w' & R & E).
  assert (Iv : invokes w root_program [scal_Z n] [] w' (scal_Z (Z.sqrt n))).
  { apply (invokes_function w _ _ _ [] w' L [] w' L).
    - apply run_last. apply runs_till. exact R.
    - apply evaluates_value.
      apply (hv_app w' _ _ "-" _ [scal_Z (Z.sqrt n + 1); scal_Z 1]); [operator| |].
      + constructor; [apply hv_global; exact E|]. constructor; [|constructor].
        apply hv_literal; [reflexivity|discriminate|reflexivity].
      + rewrite run_minus. cbn [ret snd]. f_equal. f_equal. lia. }
  rewrite <- (line_int fmt). exact (program_runs _ fmt wn input [str_of_Z n] _ [] w' _ root_text Iv).
Qed.
