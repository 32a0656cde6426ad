(** * Programs that fold and scan: proofs *)

From Coq Require Import String List NArith ZArith Bool Arith Lia.
From Verif Require Import PyStr PyRe PyNum Tokens Scan OpFun OpTable Parse Unparse
                          PTypes Ops OpsSeq Apply Spec StrFacts PFacts RunOp
                          Heap Exec SpecHeap SpecScan SpecRun SpecVars SpecMain SpecMap
                          SpecAlias SpecMeta SpecFun FunProof2 SpecImp ImpProof2 ImpProof3.
Import ListNotations.
Local Open Scope string_scope.
Local Open Scope list_scope.

Definition times : oper := Eval vm_compute in
  match op_by_arity 2 (s_ "*") with Some o => o | None => op_chain end.

(** ** Folding integers *)
(** The results of combining the items of a list with [f] from left to right,
    starting with [a]. *)
Fixpoint partials (f : Z -> Z -> Z) (a : Z) (l : list Z) : list Z :=
  match l with
  | [] => [a]
  | b :: l => a :: partials f (f a b) l
  end.
Lemma ints_left fmt text (f : Z -> Z -> Z) :
  (forall x y, run_op fmt text [scal_Z x; scal_Z y] = ret (scal_Z (f x y))) ->
  forall l a, results_left fmt text (scal_Z a) (map scal_Z l) (map scal_Z (partials f a l)).
Proof.
  intros H. induction l as [|b l IH]; intros a; cbn [partials map]; econstructor.
  - rewrite H. reflexivity.
  - reflexivity.
  - apply IH.
Qed.
Lemma partials_cons f a l : exists t, partials f a l = a :: t.
Proof. destruct l; eexists; reflexivity. Qed.
Lemma partials_last f l : forall a d, last (map scal_Z (partials f a l)) d = scal_Z (fold_left f l a).
Proof.
  induction l as [|b l IH]; intros a d; [reflexivity|]. cbn [partials fold_left].
  destruct (partials_cons f (f a b) l) as [t E]. specialize (IH (f a b) d). rewrite E in *. exact IH.
Qed.
Lemma ints_plain l : forallb plain (map scal_Z l) = true.
Proof. induction l; [reflexivity|assumption]. Qed.

Section Fold.
  Variables (text : string) (o : oper) (f : Z -> Z -> Z) (z : Z).
  Hypothesis Op : op_by_arity 2 (s_ text) = Some o.
  Hypothesis Vo : value_op o 2.
  Hypothesis As : o_assoc o = ALeft.
  Hypothesis Df : o_default o = DInt z.
  Hypothesis Unit_ : forall x, f z x = x.
  Hypothesis Run : forall fmt x y, run_op fmt text [scal_Z x; scal_Z y] = ret (scal_Z (f x y)).
  Lemma fold_ints F w L e out w' L' p l :
    evaluates F w L e out w' L' p -> elems p (map scal_Z l) ->
    evaluates F w L (TApp (op_set_fold o) [e]) out w' L' (scal_Z (fold_left f l z)).
  Proof.
    intros E El. destruct l as [|a l].
    - assert (X : scal_Z z = default_val (o_default o)) by (rewrite Df; reflexivity).
      cbn [fold_left]. rewrite X. eapply evaluates_fold_empty; eassumption.
    - cbn [fold_left]. rewrite Unit_. rewrite <- (partials_last f l a (scal_Z a)).
      eapply evaluates_fold_left; try eassumption; [exact (ints_plain (a :: l))|].
      apply ints_left. apply Run.
  Qed.
  Lemma scan_ints F w L e out w' L' p a l :
    evaluates F w L e out w' L' p -> elems p (map scal_Z (a :: l)) ->
    evaluates F w L (TApp (op_set_scan o) [e]) out w' L' (PList (map scal_Z (partials f a l))).
  Proof.
    intros E El. eapply evaluates_scan_left; try eassumption; [exact (ints_plain (a :: l))|].
    apply ints_left. apply Run.
  Qed.
End Fold.
Definition add_fold := fold_ints "+" plus Z.add 0 eq_refl ltac:(constructor; reflexivity) eq_refl eq_refl
                         Z.add_0_l run_plus.
Definition mul_fold := fold_ints "*" times Z.mul 1 eq_refl ltac:(constructor; reflexivity) eq_refl eq_refl
                         Z.mul_1_l run_times.
Definition add_scan := scan_ints "+" plus Z.add eq_refl ltac:(constructor; reflexivity) eq_refl run_plus.

Lemma invoked_value w e args w' L' p :
  (forall F, evaluates F w (bound F args) e [] w' (L' F) p) ->
  invokes w (PBlock [] e) args [] w' p.
Proof.
  intros H. apply (invokes_function w [] e args [] w (bound (PBlock [] e) args) [] w' (L' (PBlock [] e))).
  - constructor.
  - apply H.
Qed.

(** ** Sums *)
Lemma fold_add l : forall a, fold_left Z.add l a = (a + fold_right Z.add 0 l)%Z.
Proof.
  induction l as [|x l IH]; intros a; cbn [fold_left fold_right]; [lia|]. rewrite IH. lia.
Qed.
Lemma half_sum n : (0 <= n)%Z -> fold_left Z.add (ints_from 0 (Z.to_nat (n - 0))) 0%Z = (n * (n - 1) / 2)%Z.
Proof.
  intros Hn. rewrite fold_add. pose proof (sum_ints (Z.to_nat (n - 0)) 0) as S.
  replace (Z.of_nat (Z.to_nat (n - 0))) with n in S by lia.
  replace (n * (n - 1))%Z with (2 * fold_right Z.add 0 (ints_from 0 (Z.to_nat (n - 0))))%Z by (rewrite S; ring).
  rewrite Z.mul_comm, Z.div_mul by lia. reflexivity.
Qed.
Definition total_program : pval := PBlock [] (TApp (op_set_fold plus) [papp "," [pname (s_ "a")]]).
Lemma total_text : program_of "$+,a" total_program.
Proof. program. Qed.
Lemma upto_value w F n : evaluates F w (bound F [scal_Z n]) (papp "," [pname (s_ "a")]) [] w (bound F [scal_Z n])
  (PRange None (Some n)).
Proof.
  apply evaluates_value. apply (hv_app w _ _ "," _ [scal_Z n]); [operator| |rewrite run_upto; reflexivity].
  constructor; [|constructor]. apply (letter w _ _ 97%N _ ltac:(letters)). reflexivity.
Qed.
Theorem total_prints fmt wn input n : (0 <= n)%Z ->
  prints fmt wn input "$+,a" [str_of_Z n] (str_of_Z (n * (n - 1) / 2) ++ [10%N]).
Proof.
  intros Hn. rewrite <- (line_int fmt).
  apply (program_runs _ fmt wn input [str_of_Z n] _ [] (start_setting fmt) _ total_text).
  apply (invoked_value _ _ _ _ (fun F => bound F [scal_Z n])). intros F. rewrite <- half_sum by exact Hn.
  eapply add_fold; [apply upto_value|exact (elems_range None n)].
Qed.

(** ** The sum of digits *)
Definition digits_program : pval := PBlock [] (TApp (op_set_fold plus) [pname (s_ "a")]).
Lemma digits_text : program_of "$+a" digits_program.
Proof. program. Qed.
Lemma digit_int c : (48 <= c <= 57)%N -> PScal [c] = scal_Z (Z.of_N c - 48).
Proof.
  intros H.
  assert (X : In c [48; 49; 50; 51; 52; 53; 54; 55; 56; 57]%N) by (cbn; lia).
  cbn in X. repeat destruct X as [<-|X]; try reflexivity. contradiction.
Qed.
Lemma digits_ints ds : Forall (fun c => 48 <= c <= 57)%N ds ->
  map (fun c => PScal [c]) ds = map scal_Z (map (fun c => Z.of_N c - 48)%Z ds).
Proof.
  induction 1 as [|c ds H _ IH]; [reflexivity|]. cbn [map]. rewrite IH, digit_int by exact H. reflexivity.
Qed.
Theorem digits_print fmt wn input ds : Forall (fun c => 48 <= c <= 57)%N ds ->
  prints fmt wn input "$+a" [ds] (str_of_Z (fold_right Z.add 0 (map (fun c => Z.of_N c - 48) ds))%Z ++ [10%N]).
Proof.
  intros H. rewrite <- (line_int fmt).
  apply (program_runs _ fmt wn input [ds] _ [] (start_setting fmt) _ digits_text).
  apply (invoked_value _ _ _ _ (fun F => bound F [PScal ds])). intros F.
  rewrite <- (Z.add_0_l (fold_right _ _ _)). rewrite <- fold_add.
  eapply (add_fold _ _ _ _ _ _ _ (PScal ds)).
  - apply evaluates_value. apply (letter _ _ _ 97%N _ ltac:(letters)). reflexivity.
  - rewrite <- digits_ints by exact H. apply elems_scal.
Qed.

(** ** Factorials *)
Definition product_program : pval := PBlock [] (TApp (op_set_fold times) [papp "\," [pname (s_ "a")]]).
Lemma product_text : program_of "$*\,a" product_program.
Proof. program. Qed.
Lemma run_inclusive fmt z : run_op fmt "\," [scal_Z z] = ret (PRange (Some 1%Z) (Some (z + 1)%Z)).
Proof.
  destruct (NumProof.str_of_Z_numeral z) as (a & Ha & Ea & Va & _).
  run_plain. unfold op_INCLRANGETO, scal_Z. cbn [bound_of]. rewrite NumFacts.scalar_int_str. reflexivity.
Qed.
Lemma ints_snoc m : forall x, ints_from x (S m) = ints_from x m ++ [(x + Z.of_nat m)%Z].
Proof.
  induction m as [|m IH]; intros x.
  - cbn. rewrite Z.add_0_r. reflexivity.
  - cbn [ints_from]. cbn [List.app]. f_equal. change (ints_from (x + 1) (S m) = ints_from (x + 1) m ++ [(x + Z.of_nat (S m))%Z]).
    rewrite IH. do 2 f_equal. lia.
Qed.
Lemma product_fact n : fold_left Z.mul (ints_from 1 n) 1%Z = Z.of_nat (fact n).
Proof.
  induction n as [|n IH]; [reflexivity|]. rewrite ints_snoc, fold_left_app, IH. cbn [fold_left].
  change (fact (S n)) with (S n * fact n)%nat. lia.
Qed.
Theorem product_prints fmt wn input n :
  prints fmt wn input "$*\,a" [str_of_Z (Z.of_nat n)] (str_of_Z (Z.of_nat (fact n)) ++ [10%N]).
Proof.
  rewrite <- (line_int fmt). set (z := Z.of_nat n).
  apply (program_runs _ fmt wn input [str_of_Z z] _ [] (start_setting fmt) _ product_text).
  apply (invoked_value _ _ _ _ (fun F => bound F [scal_Z z])). intros F.
  rewrite <- product_fact. replace n with (Z.to_nat (z + 1 - 1)) by lia.
  eapply mul_fold; [|exact (elems_range (Some 1%Z) (z + 1))].
  apply evaluates_value. apply (hv_app _ _ _ "\," _ [scal_Z z]); [operator| |rewrite run_inclusive; reflexivity].
  constructor; [|constructor]. apply (letter _ _ _ 97%N _ ltac:(letters)). reflexivity.
Qed.

(** ** Running totals *)
Definition running_program : pval := PBlock [] (TApp (op_set_scan plus) [papp "," [pname (s_ "a")]]).
Lemma running_text : program_of "\$+,a" running_program.
Proof. program. Qed.
Lemma partials_sums m : forall x y, (0 <= x)%Z -> y = (x * (x + 1) / 2)%Z ->
  partials Z.add y (ints_from (x + 1) m) = map (fun k => k * (k + 1) / 2)%Z (ints_from x (S m)).
Proof.
  induction m as [|m IH]; intros x y Hx ->; [reflexivity|].
  change (ints_from x (S (S m))) with (x :: ints_from (x + 1) (S m)). cbn [map].
  change (ints_from (x + 1) (S m)) with ((x + 1)%Z :: ints_from (x + 1 + 1) m) at 1. cbn [partials]. f_equal.
  apply IH; [lia|].
  replace ((x + 1) * (x + 1 + 1))%Z with (x * (x + 1) + (x + 1) * 2)%Z by ring.
  rewrite Z.div_add by lia. reflexivity.
Qed.
Theorem running_prints fmt wn input n : (0 < n)%Z ->
  prints fmt wn input "\$+,a" [str_of_Z n]
    (listing fmt (PList (map (fun k => scal_Z (k * (k + 1) / 2)) (ints_from 0 (Z.to_nat n)))) ++ [10%N]).
Proof.
  intros Hn.
  apply (program_runs _ fmt wn input [str_of_Z n] _ [] (start_setting fmt)
           (PList (map (fun k => scal_Z (k * (k + 1) / 2)) (ints_from 0 (Z.to_nat n)))) running_text).
  apply (invoked_value _ _ _ _ (fun F => bound F [scal_Z n])). intros F.
  destruct (Z.to_nat n) as [|m] eqn:Em; [lia|].
  rewrite <- (map_map (fun k => (k * (k + 1) / 2)%Z) scal_Z).
  rewrite <- (partials_sums m 0 0 ltac:(lia) eq_refl).
  eapply add_scan; [apply upto_value|]. pose proof (elems_range None n) as El. cbn in El.
  rewrite Z.sub_0_r, Em in El. exact El.
Qed.
