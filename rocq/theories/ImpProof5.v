(** * Programs that filter: proofs *)

From Coq Require Import String List NArith ZArith Znumtheory Bool Arith Lia.
From Verif Require Import PyStr PyRe PyNum Tokens Scan OpFun OpTable Parse Unparse
                          PTypes Ops OpsSeq Apply Spec StrFacts PFacts RunOp
                          Heap Exec SpecHeap SpecScan SpecRun SpecVars SpecMain SpecMap FilterProof
                          SpecAlias SpecMeta SpecFun FunProof2 SpecImp ImpProof2 ImpProof3 ImpProof4.
Import ListNotations.
Local Open Scope string_scope.
Local Open Scope list_scope.

Definition rest_function : pval := PBlock [] (papp "%" [pname (s_ "y"); pname (s_ "a")]).
Definition divisors_tree : tree pval :=
  papp "FN" [TApp op_block [TBlk [papp "%" [pname (s_ "y"); pname (s_ "a")]]];
             papp "\," [papp "Y" [pname (s_ "a")]]].

Lemma rest_invoked w n d : w_var w (s_ "y") (scal_Z n) -> d <> 0%Z ->
  invokes w rest_function [scal_Z d] [] w (scal_Z (n mod d)).
Proof.
  intros Hy Nd. apply (invoked_value w _ _ w (fun F => bound F [scal_Z d])). intros F.
  apply evaluates_value. apply (hv_app w _ _ "%" _ [scal_Z n; scal_Z d]); [operator| |rewrite run_mod by exact Nd; reflexivity].
  constructor; [apply hv_global; exact Hy|]. constructor; [|constructor].
  apply (letter w _ _ 97%N _ ltac:(letters)). reflexivity.
Qed.
Lemma rests_invoked w n l : w_var w (s_ "y") (scal_Z n) -> Forall (fun d => d <> 0%Z) l ->
  invokes_each w rest_function (map scal_Z l) [] w (map (fun d => scal_Z (n mod d)) l).
Proof.
  intros Hy. induction 1 as [|d l Nd _ IH]; [constructor|]. cbn [map].
  apply (invokes_more w _ (scal_Z d) _ [] w (scal_Z (n mod d)) []); [apply rest_invoked; assumption|exact IH].
Qed.
Lemma rests_count n l :
  Forall2 counts (map (fun d => scal_Z (n mod d)) l) (map (fun d => negb (n mod d =? 0)%Z) l).
Proof. induction l; constructor; [apply counts_int|assumption]. Qed.
Lemma rests_chosen n l : chosen false (map (fun d => negb (n mod d =? 0)%Z) l) (map scal_Z l)
  = map scal_Z (filter (fun d => n mod d =? 0)%Z l).
Proof.
  induction l as [|d l IH]; [reflexivity|]. cbn [map chosen filter].
  destruct (n mod d =? 0)%Z; cbn [negb Bool.eqb map]; rewrite IH; reflexivity.
Qed.
Lemma ints_positive m : forall x, (0 < x)%Z -> Forall (fun d => d <> 0%Z) (ints_from x m).
Proof. induction m as [|m IH]; intros x H; constructor; [lia|]. apply IH. lia. Qed.

Lemma divisors_value w F n :
  evaluates F w (bound F [scal_Z n]) divisors_tree [] (know (s_ "y") (scal_Z n) w) (bound F [scal_Z n])
    (PList (map scal_Z (divisors n))).
Proof.
  set (L := bound F [scal_Z n]). set (w1 := know (s_ "y") (scal_Z n) w).
  unfold divisors. rewrite <- rests_chosen.
  apply (evaluates_filter F w L false _ _ [] w1 L rest_function (PRange (Some 1%Z) (Some (n + 1)%Z)) _ []
           w1 (map (fun d => scal_Z (n mod d)) (ints_from 1 (Z.to_nat n)))).
  - apply (evaluates_more F w L _ _ [] w L rest_function [] w1 L).
    { apply evaluates_value.
      exact (hv_function w _ _ [] (papp "%" [pname (s_ "y"); pname (s_ "a")]) (expression_app _ _)). }
    apply (evaluates_more F w L _ _ [] w1 L _ [] w1 L); [|constructor].
    eapply (evaluates_operator F w L "\," _ [_] [] w1 L [scal_Z n]).
    + vm_compute. reflexivity.
    + constructor; reflexivity.
    + apply (evaluates_more F w L _ _ [] w1 L _ [] w1 L); [|constructor].
      eapply evaluates_yank with (w1 := w) (L1 := L); [|apply sets_global; plain_one].
      apply evaluates_value. apply (letter w _ _ 97%N _ ltac:(letters)). reflexivity.
    + reflexivity.
    + rewrite run_inclusive. reflexivity.
  - pose proof (elems_range (Some 1%Z) (n + 1)) as El. cbn in El.
    replace (n + 1 - 1)%Z with n in El by lia. exact El.
  - apply rests_invoked; [left; split; reflexivity|]. apply ints_positive. lia.
  - apply rests_count.
Qed.

Lemma divisors_text : program_of "{y%a}FN\,Ya" (PBlock [] divisors_tree).
Proof. program. Qed.
Theorem divisors_print fmt wn input n :
  prints fmt wn input "{y%a}FN\,Ya" [str_of_Z n] (listing fmt (PList (map scal_Z (divisors n))) ++ [10%N]).
Proof.
  eapply (program_runs _ fmt wn input [str_of_Z n] _ [] _ (PList (map scal_Z (divisors n))) divisors_text).
  apply (invoked_value _ _ _ _ (fun F => bound F [scal_Z n])). intros F. apply divisors_value.
Qed.

Lemma sigma_text : program_of "$+({y%a}FN\,Ya)"
  (PBlock [] (TApp (op_set_fold plus) [TApp op_paren [divisors_tree]])).
Proof. program. Qed.
Theorem sigma_prints fmt wn input n :
  prints fmt wn input "$+({y%a}FN\,Ya)" [str_of_Z n] (str_of_Z (fold_right Z.add 0%Z (divisors n)) ++ [10%N]).
Proof.
  rewrite <- (line_int fmt).
  eapply (program_runs _ fmt wn input [str_of_Z n] _ [] _ _ sigma_text).
  apply (invoked_value _ _ _ _ (fun F => bound F [scal_Z n])). intros F.
  rewrite <- (Z.add_0_l (fold_right _ _ _)). rewrite <- fold_add.
  eapply add_fold; [apply evaluates_parens; apply divisors_value|apply elems_list].
Qed.

Lemma number_text : program_of "#({y%a}FN\,Ya)"
  (PBlock [] (papp "#" [TApp op_paren [divisors_tree]])).
Proof. program. Qed.
Theorem number_prints fmt wn input n :
  prints fmt wn input "#({y%a}FN\,Ya)" [str_of_Z n] (str_of_Z (Z.of_nat (length (divisors n))) ++ [10%N]).
Proof.
  rewrite <- (line_int fmt).
  eapply (program_runs _ fmt wn input [str_of_Z n] _ [] _ _ number_text).
  apply (invoked_value _ _ _ _ (fun F => bound F [scal_Z n])). intros F.
  set (L := bound F [scal_Z n]). set (w1 := know (s_ "y") (scal_Z n) (start_setting fmt)).
  eapply (evaluates_operator F _ L "#" _ [_] [] w1 L [PList (map scal_Z (divisors n))]).
  - vm_compute. reflexivity.
  - constructor; reflexivity.
  - apply (evaluates_more F _ L _ _ [] w1 L _ [] w1 L); [|constructor].
    apply evaluates_parens. apply divisors_value.
  - cbn [forallb plain]. rewrite ?ints_plain. reflexivity.
  - rewrite run_length, map_length. reflexivity.
Qed.

(** ** Primes *)
Lemma in_ints m : forall x z, In z (ints_from x m) <-> (x <= z < x + Z.of_nat m)%Z.
Proof.
  induction m as [|m IH]; intros x z; cbn [ints_from In]; [lia|]. rewrite IH. lia.
Qed.
Lemma divisors_spec n d : (0 < n)%Z -> In d (divisors n) <-> (0 < d)%Z /\ (d | n)%Z.
Proof.
  intros Hn. unfold divisors. rewrite filter_In, in_ints, Z2Nat.id by lia. split.
  - intros [H E]. apply Z.eqb_eq in E. split; [lia|]. apply Z.mod_divide; [lia|exact E].
  - intros [H Dv]. split.
    + apply Z.divide_pos_le in Dv; lia.
    + apply Z.eqb_eq. apply Z.mod_divide; [lia|exact Dv].
Qed.
Lemma ints_nodup m : forall x, NoDup (ints_from x m).
Proof.
  induction m as [|m IH]; intros x; constructor; [|apply IH]. rewrite in_ints. lia.
Qed.
Lemma divisors_nodup n : NoDup (divisors n).
Proof. apply NoDup_filter. apply ints_nodup. Qed.
Lemma prime_divisors n : (0 < n)%Z -> prime n <-> length (divisors n) = 2%nat.
Proof.
  intros Hn. split.
  - intros P. pose proof (prime_ge_2 n P) as G.
    assert (X : forall d, In d (divisors n) <-> In d [1%Z; n]).
    { intros d. rewrite divisors_spec by exact Hn. cbn. split.
      - intros [H D]. apply (prime_divisors n P) in D. lia.
      - intros [<-|[<-|[]]]; (split; [lia|]); [apply Z.divide_1_l|apply Z.divide_refl]. }
    assert (N2 : NoDup [1%Z; n]) by (constructor; [cbn; lia|repeat constructor; cbn; tauto]).
    apply Nat.le_antisymm.
    + apply (NoDup_incl_length (l := divisors n) (l' := [1%Z; n])); [apply divisors_nodup|]. intros d. apply X.
    + apply (NoDup_incl_length (l := [1%Z; n]) (l' := divisors n)); [exact N2|]. intros d. apply X.
  - intros E.
    assert (N1 : n <> 1%Z).
    { intros ->. vm_compute in E. discriminate. }
    apply prime_alt. split; [lia|]. intros d [H1 H2] D.
    assert (N3 : NoDup [1%Z; n; d]) by (repeat constructor; cbn; lia).
    assert (X : incl [1%Z; n; d] (divisors n)).
    { intros c [<-|[<-|[<-|[]]]]; apply divisors_spec; try exact Hn; (split; [lia|]);
        [apply Z.divide_1_l|apply Z.divide_refl|exact D]. }
    pose proof (NoDup_incl_length N3 X) as Le. rewrite E in Le. cbn in Le. lia.
Qed.
