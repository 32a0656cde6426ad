(** * Three programs: proofs *)

From Coq Require Import String List NArith ZArith Bool Arith Lia.
From Verif Require Import PyStr PyRe PyNum Tokens Scan OpFun OpTable Parse Unparse
                          PTypes Ops OpsSeq Apply Spec StrFacts PFacts RunOp
                          Heap Exec SpecHeap HeapProof ExecRel ExecInv EvalProof
                          SpecScan SpecRun SpecVars VarProof CtlProof PureProof LoopProof SpecMain SpecMap MapProof
                          SpecAlias FilterProof SpecMeta MetaProof SpecLam LamProof SpecRec RecProof
                          StandProof SpecFun FunProof FunProof2 SpecImp ImpProof ImpProof2.
Import ListNotations.
Local Open Scope string_scope.
Local Open Scope list_scope.

Ltac program :=
  do 4 eexists; split; [vm_compute; reflexivity|]; split; [vm_compute; reflexivity|];
  split; [discriminate|]; vm_compute; repeat (apply conj || constructor).
Ltac plain_var := repeat split; try discriminate; try (vm_compute; reflexivity);
  try (intros (c & I & E); cbn in I; repeat destruct I as [I|I]; subst; try discriminate; contradiction).

Lemma know_self x p w F L : has_value (know x p w) F L (pname x) p.
Proof. apply hv_global. left. split; reflexivity. Qed.
Lemma know_other x p w y q : y <> x -> w_var w y q -> w_var (know x p w) y q.
Proof. intros N H. right. split; assumption. Qed.

(** ** Euclid's algorithm *)
Definition euclid_body : list (tree pval) :=
  [papp ":" [pname (s_ "x"); papp "%" [pname (s_ "a"); pname (s_ "b")]];
   papp ":" [pname (s_ "a"); pname (s_ "b")];
   papp ":" [pname (s_ "b"); pname (s_ "x")]].
Definition euclid_program : pval :=
  PBlock [pcmd "W" [pname (s_ "b"); TBlk euclid_body]] (pname (s_ "a")).
Lemma euclid_text : program_of "Wb{x:a%b a:b b:x}a" euclid_program.
Proof. program. Qed.
Lemma run_first F w L t ts w1 L1 out w' L' :
  runs F w L t [] w1 L1 -> runs_all F w1 L1 ts out w' L' -> runs_all F w L (t :: ts) out w' L'.
Proof. exact (runs_cons F w L t ts [] w1 L1 out w' L'). Qed.
Lemma run_last F w L t out w' L' : runs F w L t out w' L' -> runs_all F w L [t] out w' L'.
Proof. intros R. rewrite <- (app_nil_r out). eapply runs_cons; [exact R|constructor]. Qed.
Lemma run_assign F w L x e p w' L' :
  has_value w F L e p -> sets x p w L w' L' -> runs F w L (papp ":" [pname x; e]) [] w' L'.
Proof. intros H S. eapply runs_expression. eapply evaluates_assign; [apply evaluates_value; exact H|exact S]. Qed.
Lemma letter w F (L : N -> pval) c p : In c (s_ "abcdefg") -> L c = p -> has_value w F L (pname [c]) p.
Proof. intros I <-. apply hv_local. exact I. Qed.
Ltac letters := cbn; tauto.
Lemma plain_letter c : is_lower c = true -> ~ In c (s_ "abcdefgjqr") -> plain_name [c].
Proof.
  intros Lo Ni. split; [constructor; [exact Lo|intros ->; apply Ni; cbn; tauto]|].
  split; [intros E; injection E as ->; apply Ni; cbn; tauto|].
  split; [intros E; injection E as ->; apply Ni; cbn; tauto|]. split; [discriminate|].
  intros [(d & I & E)|(k & E)].
  - injection E as ->. apply Ni. cbn in *. tauto.
  - discriminate.
Qed.
Ltac plain_one := apply plain_letter; [reflexivity|cbn; intuition discriminate].

Lemma euclid_loop F : forall n y, (0 <= y < Z.of_nat n)%Z -> forall x w L, (0 <= x)%Z ->
  L 97%N = scal_Z x -> L 98%N = scal_Z y ->
  exists w' L', runs_until F w L true (pname (s_ "b")) euclid_body [] w' L' /\ L' 97%N = scal_Z (Z.gcd x y).
Proof.
  induction n as [|n IH]; intros y Hy x w L Hx La Lb; [lia|].
  pose proof (letter w F L 98%N _ ltac:(letters) Lb) as Vb.
  destruct (Z.eq_dec y 0) as [->|N].
  - exists w, L. split; [|rewrite Z.gcd_0_r, Z.abs_eq by exact Hx; exact La].
    eapply until_stop; [apply evaluates_value; exact Vb|exact (counts_int 0)].
  - set (w1 := know (s_ "x") (scal_Z (x mod y)) w).
    set (L2 := put 97%N (scal_Z y) L). set (L3 := put 98%N (scal_Z (x mod y)) L2).
    pose proof (Z.mod_pos_bound x y ltac:(lia)) as Hm.
    destruct (IH (x mod y)%Z ltac:(lia) y w1 L3 ltac:(lia) eq_refl eq_refl) as (w' & L' & R & E).
    exists w', L'. split.
    + apply (until_again F w L true _ _ [] w L (scal_Z y) [] w1 L3 [] w' L').
      * apply evaluates_value. exact Vb.
      * pose proof (counts_int y) as C. destruct (Z.eqb_spec y 0); [contradiction|exact C].
      * eapply run_first; [|eapply run_first; [|apply run_last]].
        -- apply run_assign with (p := scal_Z (x mod y)); [|apply sets_global; plain_one].
           apply (hv_app w _ _ "%" _ [scal_Z x; scal_Z y]); [operator| |rewrite run_mod by exact N; reflexivity].
           constructor; [exact (letter w F L 97%N _ ltac:(letters) La)|]. constructor; [exact Vb|constructor].
        -- apply run_assign with (p := scal_Z y); [exact (letter w1 F L 98%N _ ltac:(letters) Lb)|].
           eapply (sets_local (s_ "a") (scal_Z y) w1 L 97%N); [letters|reflexivity].
        -- apply run_assign with (p := scal_Z (x mod y)); [apply know_self|].
           eapply (sets_local (s_ "b") _ w1 L2 98%N); [letters|reflexivity].
      * exact R.
    + rewrite E. f_equal. rewrite (Z.gcd_comm y). rewrite Z.gcd_mod by lia. apply Z.gcd_comm.
Qed.
Theorem euclid_invoked w x y : (0 <= x)%Z -> (0 <= y)%Z ->
  exists w', invokes w euclid_program [scal_Z x; scal_Z y] [] w' (scal_Z (Z.gcd x y)).
Proof.
  intros Hx Hy.
  destruct (euclid_loop euclid_program (S (Z.to_nat y)) y ltac:(lia) x w
              (bound euclid_program [scal_Z x; scal_Z y]) Hx eq_refl eq_refl) as (w' & L' & R & E).
  exists w'. apply (invokes_function w _ _ _ [] w' L' [] w' L').
  - apply run_last. apply runs_while. exact R.
  - apply evaluates_value. exact (letter w' _ L' 97%N _ ltac:(letters) E).
Qed.

(** ** A sum *)
Definition plus : oper := Eval vm_compute in
  match op_by_arity 2 (s_ "+") with Some o => o | None => op_chain end.
Definition adding (x : string) (e : tree pval) : tree pval :=
  TApp (op_set_assign plus (o_prec assign_op) (o_assoc assign_op)) [pname (s_ x); e].
Lemma run_adding F w L c e x y w' L' :
  has_value w F L (pname [c]) (scal_Z x) -> has_value w F L e (scal_Z y) ->
  sets [c] (scal_Z (x + y)) w L w' L' ->
  evaluates F w L (TApp (op_set_assign plus (o_prec assign_op) (o_assoc assign_op)) [pname [c]; e])
            [] w' L' (scal_Z (x + y)).
Proof.
  intros H1 H2 S. apply (evaluates_update F w L "+" plus _ _ [c] [e] (scal_Z x) [scal_Z y]).
  - vm_compute. reflexivity.
  - constructor; reflexivity.
  - constructor; [exact H1|]. constructor; [exact H2|constructor].
  - reflexivity.
  - rewrite run_plus. reflexivity.
  - exact S.
Qed.
Definition sum_program : pval :=
  PBlock [pcmd "F" [pname (s_ "y"); papp "," [pname (s_ "a")]; TBlk [adding "i" (pname (s_ "y"))]]]
         (pname (s_ "i")).
Lemma sum_text : program_of "Fy,a{i+:y}i" sum_program.
Proof. program. Qed.
Lemma sum_loop F L : forall m x z w, w_var w (s_ "i") (scal_Z z) ->
  exists w', runs_each F w L (s_ "y") [adding "i" (pname (s_ "y"))]
               (map (fun i => scal_Z i) (ints_from x m)) [] w' L
    /\ w_var w' (s_ "i") (scal_Z (z + fold_right Z.add 0 (ints_from x m))%Z).
Proof.
  induction m as [|m IH]; intros x z w Hi.
  - exists w. split; [constructor|]. cbn [ints_from fold_right]. rewrite Z.add_0_r. exact Hi.
  - set (w1 := know (s_ "y") (scal_Z x) w). set (w2 := know (s_ "i") (scal_Z (z + x)) w1).
    destruct (IH (x + 1)%Z (z + x)%Z w2) as (w' & R & E); [left; split; reflexivity|].
    exists w'. cbn [ints_from map fold_right]. split.
    + apply (each_more F w L (s_ "y") _ (scal_Z x) _ w1 L [] w2 L []).
      * apply sets_global. plain_one.
      * apply run_last. eapply runs_expression. apply run_adding.
        -- apply hv_global. apply know_other; [discriminate|exact Hi].
        -- apply know_self.
        -- apply sets_global. plain_one.
      * exact R.
    + rewrite Z.add_assoc. exact E.
Qed.
Lemma sum_ints m : forall x, (2 * fold_right Z.add 0 (ints_from x m) = Z.of_nat m * (2 * x + Z.of_nat m - 1))%Z.
Proof.
  induction m as [|m IH]; intros x; [reflexivity|]. cbn [ints_from fold_right].
  rewrite Z.mul_add_distr_l, IH, !Nat2Z.inj_succ. ring.
Qed.
Lemma run_upto fmt z : run_op fmt "," [scal_Z z] = ret (PRange None (Some z)).
Proof.
  destruct (NumProof.str_of_Z_numeral z) as (a & Ha & Ea & Va & _).
  run_plain. unfold op_RANGETO, scal_Z. cbn [bound_of]. rewrite NumFacts.scalar_int_str. reflexivity.
Qed.
Theorem sum_invoked w n : (0 <= n)%Z -> w_var w (s_ "i") (scal_Z 0) ->
  exists w', invokes w sum_program [scal_Z n] [] w' (scal_Z (n * (n - 1) / 2)).
Proof.
  intros Hn Hi.
  destruct (sum_loop sum_program (bound sum_program [scal_Z n]) (Z.to_nat (n - 0)) 0%Z 0%Z w Hi) as (w' & R & E).
  exists w'. apply (invokes_function w _ _ _ [] w' (bound sum_program [scal_Z n]) []
                      w' (bound sum_program [scal_Z n])).
  - apply run_last.
    eapply (runs_for _ w _ (s_ "y") _ _ [] w _ (PRange None (Some n)) _ []); [| |left; plain_one|exact R].
    + apply evaluates_value. apply (hv_app w _ _ "," _ [scal_Z n]); [operator| |rewrite run_upto; reflexivity].
      constructor; [|constructor]. apply (letter w _ _ 97%N _ ltac:(letters)). reflexivity.
    + exact (elems_range None n).
  - apply evaluates_value. apply hv_global.
    pose proof (sum_ints (Z.to_nat (n - 0)) 0) as S.
    replace (Z.of_nat (Z.to_nat (n - 0))) with n in S by lia.
    assert (X : (n * (n - 1) / 2 = 0 + fold_right Z.add 0 (ints_from 0 (Z.to_nat (n - 0))))%Z).
    { replace (n * (n - 1))%Z with (2 * fold_right Z.add 0 (ints_from 0 (Z.to_nat (n - 0))))%Z by (rewrite S; ring).
      rewrite Z.mul_comm, Z.div_mul by lia. reflexivity. }
    rewrite X. exact E.
Qed.

(** ** A function with effects *)
Definition step_function : pval := PBlock [papp "P" [pname (s_ "i")]] (adding "i" (pname (s_ "a"))).
Definition count_program : pval :=
  PBlock [papp ":" [pname (s_ "x"); TApp op_block [TBlk [papp "P" [pname (s_ "i")]; adding "i" (pname (s_ "a"))]]];
          pcmd "L" [pname (s_ "a"); TBlk [TApp op_send [pname (s_ "x"); pname (s_ "b")]]]]
         (pname (s_ "i")).
Lemma count_text : program_of "x:{Pi i+:a}La{(x b)}i" count_program.
Proof. program. Qed.
Lemma line_int fmt z : shown_line fmt (scal_Z z) = str_of_Z z ++ [10%N].
Proof.
  unfold scal_Z, shown_line, listing. cbn [items texts concat]. rewrite app_nil_r. reflexivity.
Qed.
Lemma step_invoked w z k : w_var w (s_ "i") (scal_Z z) ->
  invokes w step_function [scal_Z k] (str_of_Z z ++ [10%N]) (know (s_ "i") (scal_Z (z + k)) w) (scal_Z (z + k)).
Proof.
  intros Hi.
  set (L := bound step_function [scal_Z k]).
  rewrite <- (app_nil_r (_ ++ _)).
  apply (invokes_function w _ _ [scal_Z k] (str_of_Z z ++ [10%N]) w L [] _ L).
  - apply run_last. apply (runs_expression _ w L _ _ w L (scal_Z z)).
    assert (E : str_of_Z z ++ [10%N] = [] ++ shown_line (w_fmt w) (scal_Z z)) by (symmetry; apply line_int). rewrite E.
    apply evaluates_print. apply evaluates_value. apply hv_global. exact Hi.
  - eapply run_adding; [apply hv_global; exact Hi| |apply sets_global; plain_one].
    apply (letter w _ _ 97%N _ ltac:(letters)). reflexivity.
Qed.
Lemma count_loop F L k : L 98%N = scal_Z k ->
  forall m z w, w_var w (s_ "i") (scal_Z z) -> w_var w (s_ "x") step_function ->
  exists w', runs_times F w L [TApp op_send [pname (s_ "x"); pname (s_ "b")]] m (lines k z m) w' L
    /\ w_var w' (s_ "i") (scal_Z (z + k * Z.of_nat m)%Z).
Proof.
  intros Lk. induction m as [|m IH]; intros z w Hi Hx.
  - exists w. split; [constructor|]. rewrite Z.mul_0_r, Z.add_0_r. exact Hi.
  - destruct (IH (z + k)%Z (know (s_ "i") (scal_Z (z + k)) w)) as (w' & R & E);
      [left; split; reflexivity|apply know_other; [discriminate|exact Hx]|].
    exists w'. split.
    + cbn [lines]. rewrite app_assoc. eapply times_more; [|exact R].
      apply run_last. eapply runs_expression.
      eapply evaluates_call; [apply hv_global; exact Hx| |apply step_invoked; exact Hi].
      constructor; [exact (letter w F L 98%N _ ltac:(letters) Lk)|constructor].
    + replace (z + k * Z.of_nat (S m))%Z with (z + k + k * Z.of_nat m)%Z by lia. exact E.
Qed.
Lemma int_repetitions n : repetitions (scal_Z n) (Z.to_nat n).
Proof.
  destruct (NumProof.str_of_Z_numeral n) as (a & Ha & Ea & Va & _).
  unfold scal_Z. rewrite Ea. rewrite <- Va at 2.
  rewrite <- (app_nil_r (numeral _ _)). apply repetitions_int; [exact Ha|exact I].
Qed.
Theorem count_invoked w n k : w_var w (s_ "i") (scal_Z 0) ->
  exists w', invokes w count_program [scal_Z n; scal_Z k] (lines k 0 (Z.to_nat n)) w'
               (scal_Z (k * Z.of_nat (Z.to_nat n))).
Proof.
  intros Hi. set (L := bound count_program [scal_Z n; scal_Z k]).
  destruct (count_loop count_program L k eq_refl (Z.to_nat n) 0%Z (know (s_ "x") step_function w))
    as (w' & R & E); [apply know_other; [discriminate|exact Hi]|left; split; reflexivity|].
  exists w'. rewrite <- (app_nil_r (lines _ _ _)). eapply invokes_function with (L1 := L) (L' := L).
  - eapply run_first; [|apply run_last].
    + apply run_assign with (p := step_function); [|apply sets_global; plain_one].
      exact (hv_function w _ _ [papp "P" [pname (s_ "i")]] (adding "i" (pname (s_ "a"))) (expression_app _ _)).
    + eapply (runs_loop _ _ _ _ _ [] _ _ (scal_Z n) (Z.to_nat n)); [| |exact R].
      * apply evaluates_value. apply (letter _ _ _ 97%N _ ltac:(letters)). reflexivity.
      * apply int_repetitions.
  - apply evaluates_value. apply hv_global. exact E.
Qed.

(** ** The programs *)
Theorem euclid_prints fmt wn input x y : (0 <= x)%Z -> (0 <= y)%Z ->
  prints fmt wn input "Wb{x:a%b a:b b:x}a" [str_of_Z x; str_of_Z y] (str_of_Z (Z.gcd x y) ++ [10%N]).
Proof.
  intros Hx Hy. destruct (euclid_invoked (start_setting fmt) x y Hx Hy) as [w' Iv].
  rewrite <- (line_int fmt). exact (program_runs _ fmt wn input [str_of_Z x; str_of_Z y] _ [] w' _ euclid_text Iv).
Qed.
Lemma start_i fmt : w_var (start_setting fmt) (s_ "i") (scal_Z 0).
Proof. vm_compute. reflexivity. Qed.
Theorem sum_prints fmt wn input n : (0 <= n)%Z ->
  prints fmt wn input "Fy,a{i+:y}i" [str_of_Z n] (str_of_Z (n * (n - 1) / 2) ++ [10%N]).
Proof.
  intros Hn. destruct (sum_invoked (start_setting fmt) n Hn (start_i fmt)) as [w' Iv].
  rewrite <- (line_int fmt). exact (program_runs _ fmt wn input [str_of_Z n] _ [] w' _ sum_text Iv).
Qed.
Lemma lines_snoc k m : forall z, lines k z m ++ str_of_Z (z + k * Z.of_nat m) ++ [10%N] = lines k z (S m).
Proof.
  induction m as [|m IH]; intros z.
  - cbn [lines List.app]. rewrite Z.mul_0_r, Z.add_0_r. reflexivity.
  - transitivity (str_of_Z z ++ [10%N] ++ lines k (z + k) (S m)); [|reflexivity]. rewrite <- (IH (z + k)%Z).
    cbn [lines]. rewrite <- !app_assoc.
    replace (z + k + k * Z.of_nat m)%Z with (z + k * Z.of_nat (S m))%Z by lia. reflexivity.
Qed.
Theorem count_prints fmt wn input n k :
  prints fmt wn input "x:{Pi i+:a}La{(x b)}i" [str_of_Z n; str_of_Z k] (lines k 0 (S (Z.to_nat n))).
Proof.
  destruct (count_invoked (start_setting fmt) n k (start_i fmt)) as [w' Iv].
  rewrite <- lines_snoc. rewrite <- (line_int fmt).
  exact (program_runs _ fmt wn input [str_of_Z n; str_of_Z k] _ _ w' _ count_text Iv).
Qed.
