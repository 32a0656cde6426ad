(** * Exactness of small true divisions: C56 *)

From Coq Require Import String List NArith ZArith Bool Arith Lia ZifyBool.
From Coq Require Import Floats.SpecFloat.
From Verif Require Import PyStr PyRe PyNum Tokens OpFun OpTable Unparse PTypes
                          Ops OpsSeq Apply NumFacts NumCmp Spec PFacts RunOp.
Import ListNotations.
Local Open Scope string_scope.
Local Open Scope list_scope.
Local Open Scope Z_scope.

Lemma digits2_log2 : forall p, Zpos (digits2_pos p) = Z.log2 (Zpos p) + 1.
Proof.
  induction p as [p IH|p IH|]; cbn [digits2_pos]; [| |reflexivity].
  - change (Zpos p~1) with (2 * Zpos p + 1).
    rewrite Z.log2_succ_double, Pos2Z.inj_succ by lia. lia.
  - change (Zpos p~0) with (2 * Zpos p).
    rewrite Z.log2_double, Pos2Z.inj_succ by lia. lia.
Qed.

Lemma Zdigits2_log2 : forall m, 0 < m -> Zdigits2 m = Z.log2 m + 1.
Proof. intros [|p|p] H; try lia. apply digits2_log2. Qed.

Lemma Zdigits2_shift : forall m k, 0 < m -> 0 <= k ->
  Zdigits2 (m * 2 ^ k) = Zdigits2 m + k.
Proof.
  intros m k Hm Hk. rewrite !Zdigits2_log2 by nia.
  rewrite Z.log2_mul_pow2 by lia. lia.
Qed.

Lemma shr_one_exact : forall m, 0 < m ->
  shr_1 (Build_shr_record (2 * m) false false) = Build_shr_record m false false.
Proof. intros [|p|p] H; try lia. reflexivity. Qed.

Lemma iter_pos_iter : forall {A} (f : A -> A) p x,
  iter_pos f p x = Nat.iter (Pos.to_nat p) f x.
Proof.
  intros A f. induction p as [p IH|p IH|]; intro x; cbn [iter_pos].
  - rewrite !IH. rewrite Pos2Nat.inj_xI.
    replace (S (2 * Pos.to_nat p)) with (Pos.to_nat p + (Pos.to_nat p + 1))%nat by lia.
    unfold Nat.iter. rewrite !nat_rect_plus. reflexivity.
  - rewrite !IH. rewrite Pos2Nat.inj_xO.
    replace (2 * Pos.to_nat p)%nat with (Pos.to_nat p + Pos.to_nat p)%nat by lia.
    unfold Nat.iter. rewrite !nat_rect_plus. reflexivity.
  - reflexivity.
Qed.

Lemma shr_exact : forall n m, 0 < m ->
  Nat.iter n shr_1 (Build_shr_record (m * 2 ^ Z.of_nat n) false false)
  = Build_shr_record m false false.
Proof.
  induction n as [|n IH]; intros m Hm.
  - cbn [Nat.iter nat_rect]. rewrite Z.pow_0_r, Z.mul_1_r. reflexivity.
  - replace (m * 2 ^ Z.of_nat (S n)) with ((2 * m) * 2 ^ Z.of_nat n)
      by (rewrite Nat2Z.inj_succ, Z.pow_succ_r by lia; ring).
    change (shr_1 (Nat.iter n shr_1
      {| shr_m := 2 * m * 2 ^ Z.of_nat n; shr_r := false; shr_s := false |})
      = Build_shr_record m false false).
    rewrite IH by lia. apply shr_one_exact, Hm.
Qed.

(** A value that fits in the precision is not rounded. *)
Lemma round_exact : forall s m k e, 0 < m -> 0 <= k ->
  fexp prec53 emax1024 (Zdigits2 (m * 2 ^ k) + e) = e + k ->
  e + k <= emax1024 - prec53 ->
  binary_round_aux prec53 emax1024 s (m * 2 ^ k) e loc_Exact
  = S754_finite s (Z.to_pos m) (e + k).
Proof.
  intros s m k e Hm Hk Hf He. unfold binary_round_aux.
  assert (H1 : shr_fexp prec53 emax1024 (m * 2 ^ k) e loc_Exact
               = (Build_shr_record m false false, e + k)).
  { unfold shr_fexp, shr. rewrite Hf. cbn [shr_record_of_loc].
    replace (e + k - e) with k by lia.
    destruct k as [|p|p]; [|rewrite iter_pos_iter|lia].
    - rewrite Z.pow_0_r, Z.mul_1_r, Z.add_0_r. reflexivity.
    - f_equal. rewrite <- (shr_exact (Pos.to_nat p) m Hm).
      rewrite positive_nat_Z. reflexivity. }
  rewrite H1. cbn [shr_m loc_of_shr_record round_nearest_even].
  assert (H2 : shr_fexp prec53 emax1024 m (e + k) loc_Exact
               = (Build_shr_record m false false, e + k)).
  { unfold shr_fexp. rewrite Zdigits2_shift in Hf by assumption.
    replace (Zdigits2 m + (e + k)) with (Zdigits2 m + k + e) by lia.
    rewrite Hf, Z.sub_diag. reflexivity. }
  rewrite H2. cbn [shr_m]. destruct m as [|p|p]; try lia.
  replace (e + k <=? emax1024 - prec53) with true by lia. reflexivity.
Qed.

Lemma half_ratio : forall s n, 0 < Zpos n < 2 ^ 53 ->
  exists k, 0 <= k
    /\ round_ratio s n 2 = S754_finite s (Z.to_pos (Zpos n * 2 ^ k)) (- (k + 1)).
Proof.
  intros s n Hn. unfold round_ratio, SFdiv_core_binary.
  set (d := Zdigits2 (Zpos n)).
  assert (Hd : 1 <= d <= 53).
  { unfold d. rewrite Zdigits2_log2 by lia.
    pose proof (Z.log2_nonneg (Zpos n)).
    assert (Z.log2 (Zpos n) < 53) by (apply Z.log2_lt_pow2; lia). lia. }
  change (Zdigits2 2) with 2.
  assert (He : Z.min (fexp prec53 emax1024 (d + 0 - (2 + 0))) (0 - 0) = d - 55).
  { unfold fexp, emin, prec53, emax1024. lia. }
  rewrite He. cbv zeta. set (sh := 0 - 0 - (d - 55)).
  assert (Hsh : sh = 55 - d) by (unfold sh; lia).
  exists (sh - 2). split; [lia|].
  assert (Hm : match sh with
               | 0 => Zpos n
               | Zpos _ => Z.shiftl (Zpos n) sh
               | Zneg _ => 0
               end = Zpos n * 2 ^ (sh - 2) * 2 ^ 1 * 2).
  { destruct sh as [|p|p] eqn:E; try lia.
    rewrite Z.shiftl_mul_pow2 by lia.
    replace (Zpos p) with (Zpos p - 2 + 1 + 1) at 1 by lia.
    rewrite !Z.pow_add_r by lia. change (2 ^ 1) with 2. ring. }
  rewrite Hm.
  set (q := Zpos n * 2 ^ (sh - 2) * 2 ^ 1).
  assert (Hq : Z.div_eucl (q * 2) 2 = (q, 0)).
  { pose proof (Z.div_mul q 2 ltac:(lia)) as H1.
    pose proof (Z.mod_mul q 2 ltac:(lia)) as H2.
    unfold Z.div, Z.modulo in H1, H2. destruct (Z.div_eucl (q * 2) 2). congruence. }
  rewrite Hq.
  change (new_location 2 0) with loc_Exact.
  unfold q. rewrite round_exact.
  - f_equal. lia.
  - nia.
  - lia.
  - rewrite !Zdigits2_shift by nia. fold d.
    unfold fexp, emin, prec53, emax1024. lia.
  - unfold prec53, emax1024. lia.
Qed.

Lemma halves_floor : forall s n k, 0 <= k ->
  float_floor (S754_finite s (Z.to_pos (Zpos n * 2 ^ k)) (- (k + 1)))
  = Val ((if s then Zneg n else Zpos n) / 2).
Proof.
  intros s n k Hk. unfold float_floor.
  replace (0 <=? - (k + 1)) with false by lia. rewrite Z.opp_involutive.
  f_equal.
  assert (Hp : 0 < 2 ^ k) by (apply Z.pow_pos_nonneg; lia).
  assert (E : Zpos (Z.to_pos (Zpos n * 2 ^ k)) = Zpos n * 2 ^ k)
    by (apply Z2Pos.id; nia).
  assert (E2 : (if s then Zneg (Z.to_pos (Zpos n * 2 ^ k))
                else Zpos (Z.to_pos (Zpos n * 2 ^ k)))
               = (if s then Zneg n else Zpos n) * 2 ^ k).
  { destruct s; [|exact E].
    change (Zneg (Z.to_pos (Zpos n * 2 ^ k)))
      with (- Zpos (Z.to_pos (Zpos n * 2 ^ k))).
    rewrite E. change (Zneg n) with (- Zpos n). ring. }
  rewrite E2. rewrite Z.pow_add_r by lia. change (2 ^ 1) with 2.
  rewrite (Z.mul_comm (2 ^ k) 2). apply Z.div_mul_cancel_r; lia.
Qed.

Lemma half_of_int : forall n, - 2 ^ 53 < n < 2 ^ 53 ->
  exists f, int_truediv n 2 = Val (NF f)
    /\ float_floor f = Val (n / 2) /\ float_ceil f = Val (- ((- n) / 2)).
Proof.
  intros [|p|p] Hn.
  - exists (S754_zero false). repeat split.
  - destruct (half_ratio false p ltac:(lia)) as (k & Hk & E).
    exists (S754_finite false (Z.to_pos (Zpos p * 2 ^ k)) (- (k + 1))).
    split; [|split].
    + unfold int_truediv. cbn [Z.ltb Z.compare xorb Z.abs Z.to_pos]. rewrite E. reflexivity.
    + apply (halves_floor false), Hk.
    + unfold float_ceil. cbn [SFopp negb]. rewrite (halves_floor true) by exact Hk.
      reflexivity.
  - destruct (half_ratio true p ltac:(lia)) as (k & Hk & E).
    exists (S754_finite true (Z.to_pos (Zpos p * 2 ^ k)) (- (k + 1))).
    split; [|split].
    + unfold int_truediv. cbn [Z.ltb Z.compare xorb Z.abs Z.to_pos]. rewrite E. reflexivity.
    + apply (halves_floor true), Hk.
    + unfold float_ceil. cbn [SFopp negb]. rewrite (halves_floor false) by exact Hk.
      reflexivity.
Qed.

Lemma halve_small : forall fmt n, - 2 ^ 53 < n < 2 ^ 53 ->
  run_op fmt "HV" [scal_Z n] = ret (scal_Z (n / 2))
  /\ run_op fmt "HU" [scal_Z n] = ret (scal_Z (- ((- n) / 2))).
Proof.
  intros fmt n Hn. destruct (half_of_int n Hn) as (f & E & Hf & Hc).
  split; run_plain; unfold op_HALVE, op_HALVEUP, on_num, scal_Z;
    rewrite to_number_str; unfold num_truediv; cbn [lift2]; rewrite E;
    cbn [rbind num_floor num_ceil]; rewrite ?Hf, ?Hc; reflexivity.
Qed.
