(** * Powers and rounding: lemmas for C80 and C81 *)

From Coq Require Import String List NArith ZArith QArith Qpower Bool Arith Lia ZifyBool.
From Coq Require Import Floats.SpecFloat.
From Verif Require Import PyStr PyRe PyNum Tokens OpFun OpTable Unparse PTypes
                          Ops OpsSeq Apply NumFacts NumCmp Spec SpecArith PFacts RunOp.
From Verif Require NumProof HalveProof.
Import ListNotations.
Local Open Scope string_scope.
Local Open Scope list_scope.
Local Open Scope Z_scope.

Lemma copies_pow : forall x n, copies_of x n = x ^ Z.of_nat n.
Proof.
  intros x. induction n as [|n IH]; [reflexivity|].
  cbn [copies_of]. rewrite IH, Nat2Z.inj_succ, Z.pow_succ_r by lia. reflexivity.
Qed.

Lemma num_pow_copies : forall x n,
  num_pow (NI x) (NI (Z.of_nat n)) = Val (NI (copies_of x n)).
Proof.
  intros x n. cbn [num_pow]. replace (0 <=? Z.of_nat n) with true by lia.
  rewrite copies_pow. reflexivity.
Qed.

Section Numerals.
Variables (fmt : ofmt) (na nb : bool) (a b : list N).
Hypotheses (Da : decimal a) (Db : decimal b).
Notation A := (PScal (numeral na a)).
Notation B := (PScal (numeral nb b)).
Notation va := (numeral_value na a).
Notation vb := (numeral_value nb b).

Ltac go := run_plain; cbn; rewrite ?(NumProof.to_number_numeral na a Da),
             ?(NumProof.to_number_numeral nb b Db).

Lemma power_numeral : forall n, vb = Z.of_nat n ->
  run_op fmt "**" [A; B] = ret (scal_Z (copies_of va n))
  /\ run_op fmt "E" [A; B] = ret (scal_Z (copies_of va n))
  /\ run_op fmt "**" [B] = ret (scal_Z (copies_of 2 n))
  /\ run_op fmt "E" [B] = ret (scal_Z (copies_of 2 n))
  /\ run_op fmt "EE" [A; B] = ret (scal_Z (va * copies_of 10 n))
  /\ run_op fmt "EE" [B] = ret (scal_Z (copies_of 10 n)).
Proof.
  intros n E.
  assert (H2 : to_number (s_ "2") = NI 2) by (vm_compute; reflexivity).
  assert (H1 : to_number (s_ "1") = NI 1) by (vm_compute; reflexivity).
  repeat split; run_plain; unfold op_POW, op_POWEROFTEN, two;
    rewrite ?H2, ?H1, ?(NumProof.to_number_numeral na a Da),
             ?(NumProof.to_number_numeral nb b Db), ?E, ?num_pow_copies;
    cbn [catch_zero rbind]; try reflexivity.
  unfold num_mul, lift2, lift. rewrite Z.mul_1_l. reflexivity.
Qed.

Lemma zero_power_numeral : va = 0 -> vb < 0 ->
  run_op fmt "**" [A; B] = reject "POW: zero".
Proof.
  intros E1 E2. run_plain. unfold op_POW.
  rewrite (NumProof.to_number_numeral na a Da), (NumProof.to_number_numeral nb b Db), E1.
  cbn [num_pow]. replace (0 <=? vb) with false by lia. reflexivity.
Qed.

Lemma simple_numeral :
  run_op fmt "SQ" [A] = ret (scal_Z (va * va))
  /\ run_op fmt "DB" [A] = ret (scal_Z (va + va))
  /\ run_op fmt "AB" [A] = ret (scal_Z (Z.max va (- va)))
  /\ run_op fmt "AD" [A; B] = ret (scal_Z (Z.max (va - vb) (vb - va))).
Proof.
  repeat split; run_plain; unfold op_SQUARE, op_DOUBLE, op_ABS, op_ABSOLUTEDIFF, on_num;
    rewrite ?(NumProof.to_number_numeral na a Da),
             ?(NumProof.to_number_numeral nb b Db);
    unfold num_mul, num_sub, num_abs, lift2, lift; cbn [rbind];
    unfold scal_num, scal_Z; cbn [str_of_num];
    match goal with |- _ = ret (PScal (str_of_Z ?y)) =>
      match goal with |- context [str_of_Z ?x] =>
        replace x with y by lia; reflexivity end end.
Qed.

Lemma sign_numeral : exists z, run_op fmt "SG" [A] = ret (scal_Z z)
  /\ (va < 0 -> z = -1) /\ (va = 0 -> z = 0) /\ (0 < va -> z = 1).
Proof.
  run_plain. unfold op_SIGN. rewrite (NumProof.to_number_numeral na a Da).
  rewrite num_ltb_NI, num_gtb_NI.
  destruct (Z.ltb_spec va 0); [eexists; split; [reflexivity|lia]|].
  destruct (va >? 0) eqn:E; eexists; (split; [reflexivity|lia]).
Qed.
End Numerals.

(** ** Rounding *)

Lemma pow2_pos : forall e, (0 < Qpower (inject_Z 2) e)%Q.
Proof. intro e. apply Qpower_0_lt. reflexivity. Qed.

Lemma pow2_nonneg_Z : forall e, 0 <= e -> (Qpower (inject_Z 2) e == inject_Z (2 ^ e))%Q.
Proof. intros e H. symmetry. apply Zpower_Qpower, H. Qed.

Lemma pow2_neg : forall e, 0 <= e ->
  (Qpower (inject_Z 2) (- e) * inject_Z (2 ^ e) == inject_Z 1)%Q.
Proof.
  intros e H. rewrite Qpower_opp, pow2_nonneg_Z by assumption.
  rewrite Qmult_comm. apply Qmult_inv_r. intro E.
  assert (0 < 2 ^ e) by (apply Z.pow_pos_nonneg; lia).
  unfold Qeq, inject_Z in E. simpl in E. lia.
Qed.

(** Comparing [v * 2^e] with an integer. *)
Lemma dyadic_le : forall v e z, e <= 0 ->
  ((inject_Z v * Qpower (inject_Z 2) e <= inject_Z z)%Q <-> v <= z * 2 ^ (- e)).
Proof.
  intros v e z He. set (k := - e) in *. replace e with (- k) by lia.
  assert (P : 0 < 2 ^ k) by (apply Z.pow_pos_nonneg; lia).
  assert (PQ : (0 < inject_Z (2 ^ k))%Q) by (unfold Qlt, inject_Z; cbn; lia).
  rewrite <- (Qmult_le_r _ _ (inject_Z (2 ^ k)) PQ).
  rewrite <- Qmult_assoc, pow2_neg by lia.
  rewrite <- !inject_Z_mult, <- Zle_Qle. lia.
Qed.
Lemma dyadic_ge : forall v e z, e <= 0 ->
  ((inject_Z z <= inject_Z v * Qpower (inject_Z 2) e)%Q <-> z * 2 ^ (- e) <= v).
Proof.
  intros v e z He. set (k := - e) in *. replace e with (- k) by lia.
  assert (P : 0 < 2 ^ k) by (apply Z.pow_pos_nonneg; lia).
  assert (PQ : (0 < inject_Z (2 ^ k))%Q) by (unfold Qlt, inject_Z; cbn; lia).
  rewrite <- (Qmult_le_r _ _ (inject_Z (2 ^ k)) PQ).
  rewrite <- Qmult_assoc, pow2_neg by lia.
  rewrite <- !inject_Z_mult, <- Zle_Qle. lia.
Qed.

Definition signed (s : bool) (m : positive) : Z := if s then Zneg m else Zpos m.

(** Floor and ceiling of a mantissa and exponent. *)
Definition dy_floor (v e : Z) : Z := if 0 <=? e then v * 2 ^ e else v / 2 ^ (- e).

Lemma dy_floor_down : forall v e,
  rounded_down (inject_Z v * Qpower (inject_Z 2) e)%Q (dy_floor v e).
Proof.
  intros v e. unfold rounded_down, dy_floor. destruct (Z.leb_spec 0 e).
  - rewrite pow2_nonneg_Z, <- inject_Z_mult, <- Zle_Qle, <- Zlt_Qlt by assumption. lia.
  - split; [apply dyadic_ge; [lia|]|apply Qnot_le_lt; rewrite dyadic_ge by lia];
      assert (P : 0 < 2 ^ (- e)) by (apply Z.pow_pos_nonneg; lia);
      pose proof (Z.div_mod v (2 ^ (- e))); pose proof (Z.mod_pos_bound v (2 ^ (- e)) P); nia.
Qed.

Lemma rounded_down_opp : forall q z, rounded_down q z -> rounded_up (- q)%Q (- z).
Proof.
  intros q z [H1 H2]. unfold rounded_up. rewrite inject_Z_opp.
  replace (- z - 1) with (- (z + 1)) by lia. rewrite inject_Z_opp.
  split; [apply Qopp_lt_compat, H2|apply Qopp_le_compat, H1].
Qed.

Lemma rounded_up_proper : forall q q' z, (q == q')%Q -> rounded_up q z -> rounded_up q' z.
Proof. unfold rounded_up. intros q q' z E. rewrite E. trivial. Qed.

Lemma rounded_int : forall z, rounded_down (inject_Z z) z /\ rounded_up (inject_Z z) z.
Proof.
  intro z. unfold rounded_down, rounded_up.
  rewrite <- !Zle_Qle, <- !Zlt_Qlt. lia.
Qed.

Lemma floor_exact : forall x q, exact x = Some q ->
  exists z, num_floor x = Val z /\ rounded_down q z.
Proof.
  intros [z|[s|s| |s m e]] q H; cbn in H; try discriminate; injection H as <-.
  - exists z. split; [reflexivity|apply rounded_int].
  - exists 0. split; [reflexivity|apply rounded_int].
  - eexists. split; [reflexivity|]. apply (dy_floor_down (signed s m)).
Qed.

Lemma ceil_exact : forall x q, exact x = Some q ->
  exists z, num_ceil x = Val z /\ rounded_up q z.
Proof.
  intros [z|[s|s| |s m e]] q H; cbn in H; try discriminate; injection H as <-.
  - exists z. split; [reflexivity|apply rounded_int].
  - exists 0. split; [reflexivity|apply rounded_int].
  - eexists. split; [reflexivity|]. eapply rounded_up_proper;
      [|apply rounded_down_opp, (dy_floor_down (signed (negb s) m))].
    destruct s; unfold signed; cbn [negb];
      [change (Z.neg m) with (- Z.pos m)|change (Z.neg m) with (- Z.pos m)];
      rewrite inject_Z_opp; ring.
Qed.

Lemma signed_sign : forall s m e,
  (s = true -> inject_Z (signed s m) * Qpower (inject_Z 2) e < 0)%Q
  /\ (s = false -> 0 < inject_Z (signed s m) * Qpower (inject_Z 2) e)%Q.
Proof.
  intros s m e. pose proof (pow2_pos e) as P. split; intros ->; cbn [signed].
  - rewrite <- (Qmult_0_l (Qpower (inject_Z 2) e)).
    apply Qmult_lt_r; [exact P|reflexivity].
  - rewrite <- (Qmult_0_l (Qpower (inject_Z 2) e)).
    apply Qmult_lt_r; [exact P|reflexivity].
Qed.

Lemma trunc_exact : forall x q, exact x = Some q ->
  exists z, num_trunc x = Val z /\ rounded_in q z.
Proof.
  intros x q H. destruct (floor_exact x q H) as (z & F & R).
  destruct (ceil_exact x q H) as (z' & C & R').
  destruct x as [y|[s|s| |s m e]]; cbn in H; try discriminate; injection H as <-.
  - cbn in F, C. injection F as <-. injection C as <-. exists y. repeat split; intros; auto; apply rounded_int.
  - exists 0. repeat split; intros; apply rounded_int.
  - destruct (signed_sign s m e) as [Hn Hp]. destruct s.
    + exists z'. split; [exact C|]. split; intro Hq; [|exact R'].
      exfalso. apply (Qlt_not_le _ _ (Hn eq_refl)), Hq.
    + exists z. split; [exact F|]. split; intro Hq; [exact R|].
      exfalso. apply (Qlt_not_le _ _ (Hp eq_refl)), Hq.
Qed.

(** ** Floats read from text are in range *)

Definition emin64 : Z := -1074.

Lemma fexp_min : forall e, emin64 <= fexp prec53 emax1024 e.
Proof. intro e. unfold fexp, SpecFloat.emin, prec53, emax1024, emin64. lia. Qed.

Lemma shr_fexp_min : forall m e l,
  emin64 <= snd (shr_fexp prec53 emax1024 m e l).
Proof.
  intros m e l. unfold shr_fexp, shr. pose proof (fexp_min (Zdigits2 m + e)) as H.
  destruct (fexp prec53 emax1024 (Zdigits2 m + e) - e) eqn:E; cbn [snd]; lia.
Qed.

Lemma shr_1_half : forall r, 0 <= shr_m r -> shr_m (shr_1 r) = shr_m r / 2.
Proof.
  intros [m r s] H. cbn in H |- *. destruct m as [|[p|p|]|p]; try reflexivity; try lia;
    cbn [shr_m].
  - change (Zpos p~1) with (2 * Zpos p + 1).
    apply (Z.div_unique _ 2 _ 1); lia.
  - change (Zpos p~0) with (2 * Zpos p).
    apply (Z.div_unique _ 2 _ 0); lia.
Qed.

Lemma shr_iter_div : forall n r, 0 <= shr_m r ->
  shr_m (Nat.iter n shr_1 r) = shr_m r / 2 ^ Z.of_nat n.
Proof.
  induction n as [|n IH]; intros r H.
  - cbn. rewrite Z.div_1_r. reflexivity.
  - change (shr_m (shr_1 (Nat.iter n shr_1 r)) = shr_m r / 2 ^ Z.of_nat (S n)).
    rewrite shr_1_half; rewrite IH by assumption.
    + rewrite Nat2Z.inj_succ, Z.pow_succ_r, Z.mul_comm, Z.div_div by lia. reflexivity.
    + apply Z.div_pos; lia.
Qed.

Lemma shr_fexp_pos : forall m e l, 0 < m -> emin64 <= e ->
  0 < shr_m (fst (shr_fexp prec53 emax1024 m e l)).
Proof.
  intros m e l Hm He. unfold shr_fexp, shr.
  assert (H0 : shr_m (shr_record_of_loc m l) = m) by (destruct l as [|[]]; reflexivity).
  destruct (fexp prec53 emax1024 (Zdigits2 m + e) - e) as [|p|p] eqn:E;
    cbn [fst]; try lia.
  rewrite HalveProof.iter_pos_iter, shr_iter_div, H0 by lia. rewrite positive_nat_Z.
  assert (Hp : Zpos p <= Z.log2 m).
  { unfold fexp, SpecFloat.emin, prec53, emax1024 in E. unfold emin64 in He.
    rewrite HalveProof.Zdigits2_log2 in E by assumption.
    pose proof (Z.log2_nonneg m). lia. }
  apply Z.div_str_pos. split; [apply Z.pow_pos_nonneg; lia|].
  destruct (Z.log2_spec m Hm) as [L _].
  etransitivity; [|exact L]. apply Z.pow_le_mono_r; lia.
Qed.

Lemma round_aux_finite : forall s m e l s' m' e', 
  binary_round_aux prec53 emax1024 s m e l = S754_finite s' m' e' -> emin64 <= e'.
Proof.
  intros s m e l s' m' e'. unfold binary_round_aux.
  destruct (shr_fexp prec53 emax1024 m e l) as [r1 e1].
  pose proof (shr_fexp_min (round_nearest_even (shr_m r1) (loc_of_shr_record r1)) e1 loc_Exact) as H.
  destruct (shr_fexp prec53 emax1024 _ e1 loc_Exact) as [r2 e2]. cbn [snd] in H.
  destruct (shr_m r2); try discriminate.
  destruct (Z.leb e2 _); [|discriminate]. intro E. injection E as _ _ <-. exact H.
Qed.

Lemma round_aux_sign : forall s m e l, 0 < m -> emin64 <= e ->
  binary_round_aux prec53 emax1024 s m e l = S754_infinity s
  \/ exists m' e', binary_round_aux prec53 emax1024 s m e l = S754_finite s m' e'.
Proof.
  intros s m e l Hm He. unfold binary_round_aux.
  pose proof (shr_fexp_pos m e l Hm He) as H1.
  pose proof (shr_fexp_min m e l) as H1'.
  destruct (shr_fexp prec53 emax1024 m e l) as [r1 e1]. cbn [fst snd] in H1, H1'.
  assert (H2 : 0 < round_nearest_even (shr_m r1) (loc_of_shr_record r1)).
  { unfold round_nearest_even. destruct (loc_of_shr_record r1) as [|[]];
      try destruct (Z.even _); lia. }
  pose proof (shr_fexp_pos _ e1 loc_Exact H2 H1') as H3.
  destruct (shr_fexp prec53 emax1024 _ e1 loc_Exact) as [r2 e2]. cbn [fst] in H3.
  destruct (shr_m r2); try lia.
  destruct (Z.leb e2 _); [right; eauto|left; reflexivity].
Qed.

Lemma normalize_finite : forall z e b s m e',
  binary_normalize prec53 emax1024 z e b = S754_finite s m e' -> emin64 <= e'.
Proof.
  intros [|p|p] e b s m e'; unfold binary_normalize, binary_round; [discriminate| |];
    destruct (shl_align _ _ _); apply round_aux_finite.
Qed.

Lemma shl_align_min : forall p e e1 m' e', shl_align p e e1 = (m', e') ->
  emin64 <= e -> emin64 <= e1 -> emin64 <= e'.
Proof.
  intros p e e1 m' e'. unfold shl_align. destruct (e1 - e); intro E; injection E as _ <-; lia.
Qed.

Lemma normalize_sign : forall z e b, z <> 0 -> emin64 <= e ->
  let f := binary_normalize prec53 emax1024 z e b in
  f = S754_infinity (z <? 0) \/ exists m' e', f = S754_finite (z <? 0) m' e'.
Proof.
  intros [|p|p] e b Hz He f; subst f; [lia| |];
    unfold binary_normalize, binary_round;
    destruct (shl_align p e _) as [m' e'] eqn:E;
    apply round_aux_sign; try lia;
    eapply shl_align_min; eauto; apply fexp_min.
Qed.

Lemma decimal_finite : forall neg m e s m' e',
  float_of_decimal neg m e = S754_finite s m' e' -> emin64 <= e'.
Proof.
  intros neg [|p] e s m' e'; unfold float_of_decimal; [discriminate|].
  destruct (0 <=? e).
  - intro E. destruct (float_of_Z_raw (Zpos p * 10 ^ e)) eqn:F; destruct neg; cbn in E;
      try discriminate; injection E as _ _ <-; eapply normalize_finite, F.
  - destruct (10 ^ (- e)); try discriminate. unfold round_ratio.
    destruct (SFdiv_core_binary _ _ _ _ _ _) as [[mz ez] lz]. apply round_aux_finite.
Qed.

Lemma to_number_finite : forall t s m e,
  to_number t = NF (S754_finite s m e) -> emin64 <= e.
Proof.
  intros t s m e. unfold to_number. cbv zeta.
  destruct (match_re py_float_re (lstrip is_space t)) as [r|].
  - unfold float_of_numeral.
    repeat match goal with |- context [let '(_, _) := ?x in _] => destruct x end.
    intro E. injection E as E. eapply decimal_finite, E.
  - destruct (match_re int_re (lstrip is_space t)); discriminate.
Qed.

(** ** Rounding to the nearest integer *)

Lemma one_float : float_of_Z 1 = Val (S754_finite false 4503599627370496 (-52)).
Proof. vm_compute. reflexivity. Qed.

Lemma dyadic_shift : forall v e e0, e0 <= e ->
  (inject_Z v * Qpower (inject_Z 2) e
   == inject_Z (v * 2 ^ (e - e0)) * Qpower (inject_Z 2) e0)%Q.
Proof.
  intros v e e0 H. rewrite inject_Z_mult, <- pow2_nonneg_Z by lia.
  rewrite <- Qmult_assoc, <- Qpower_plus by discriminate.
  replace (e - e0 + e0) with e by lia. reflexivity.
Qed.

(** What [rounded_down], [rounded_up] and [rounded_nearest] say of [V / b]. *)
Section Ratio.
Variables (V e : Z) (q : Q).
Hypotheses (He : e <= 0) (Hq : (q == inject_Z V * Qpower (inject_Z 2) e)%Q).
Let b := 2 ^ (- e).

Lemma down_ratio : forall z, rounded_down q z -> z * b <= V < (z + 1) * b.
Proof.
  intros z [H1 H2]. rewrite Hq in H1, H2. apply dyadic_ge in H1; [|exact He].
  split; [exact H1|]. apply Z.nle_gt. intro H. apply dyadic_ge in H; [|exact He].
  apply (Qlt_not_le _ _ H2 H).
Qed.
Lemma up_ratio : forall z, rounded_up q z -> (z - 1) * b < V <= z * b.
Proof.
  intros z [H1 H2]. rewrite Hq in H1, H2. apply dyadic_le in H2; [|exact He].
  split; [|exact H2]. apply Z.nle_gt. intro H. apply dyadic_le in H; [|exact He].
  apply (Qlt_not_le _ _ H1 H).
Qed.
Lemma nearest_ratio : forall z,
  (2 * z - 1) * b <= 2 * V <= (2 * z + 1) * b ->
  (2 * V = (2 * z - 1) * b \/ 2 * V = (2 * z + 1) * b -> Z.even z = true) ->
  rounded_nearest q z.
Proof.
  intros z H Ht.
  assert (E : (2 * q == inject_Z (2 * V) * Qpower (inject_Z 2) e)%Q).
  { rewrite Hq, inject_Z_mult. change (inject_Z 2 * inject_Z V)%Q with (2 * inject_Z V)%Q. ring. }
  split.
  - rewrite E. split; [apply dyadic_ge|apply dyadic_le]; try exact He; unfold b in H; lia.
  - intros T. apply Ht. destruct T as [T|T]; [left|right];
      rewrite E in T;
      pose proof (Qle_refl (inject_Z (2 * V) * Qpower (inject_Z 2) e)) as R1;
      pose proof R1 as R2; rewrite T in R1 at 1; rewrite T in R2 at 2;
      apply dyadic_ge in R1; try exact He; apply dyadic_le in R2; try exact He;
      unfold b; lia.
Qed.
End Ratio.

(** The nearest integer to [a / b], by quotient and remainder. *)
Lemma nearest_cases : forall a b q r, 0 < b -> a = q * b + r -> 0 <= r < b ->
  let up := match Z.compare (2 * r) b with
            | Lt => false | Gt => true | Eq => negb (Z.even q) end in
  let z := if up then q + 1 else q in
  (2 * z - 1) * b <= 2 * a <= (2 * z + 1) * b
  /\ (2 * a = (2 * z - 1) * b \/ 2 * a = (2 * z + 1) * b -> Z.even z = true).
Proof.
  intros a b q r Hb E Hr up z. subst up z.
  destruct (Z.compare_spec (2 * r) b); [destruct (Z.even q) eqn:Ev|..]; cbn [negb];
    (split; [nia|]); intros [T|T]; try (exfalso; nia); try exact Ev.
  - change (q + 1) with (Z.succ q). rewrite Z.even_succ, <- Z.negb_even, Ev. reflexivity.
Qed.

Lemma nearest_exact : forall t q, exact (to_number t) = Some q ->
  match to_number t with NI z => is_inf (float_of_Z_raw z) = false | NF _ => True end ->
  exists z, rbind (num_remainder (to_number t) (NI 1)) (fun r =>
              if num_gtb r (NI 0) then num_floor (to_number t)
              else num_ceil (to_number t)) = Val z
    /\ rounded_nearest q z.
Proof.
  intros t q H Hf. pose proof (to_number_finite t) as Hmin.
  destruct (floor_exact _ q H) as (zf & F & Rf).
  destruct (ceil_exact _ q H) as (zc & C & Rc).
  destruct (to_number t) as [y|[s|s| |s m e]]; cbn in H; try discriminate; injection H as <-.
  - exists y. cbn in F, C. injection F as <-. injection C as <-. split.
    + unfold num_remainder, to_float. unfold float_of_Z at 1. rewrite Hf, one_float.
      cbn [rbind num_floor num_ceil].
      assert (exists r, float_remainder (float_of_Z_raw y)
                          (S754_finite false 4503599627370496 (-52)) = Val r) as (r & ->).
      { destruct (float_of_Z_raw y); try (eexists; reflexivity); [discriminate|].
        unfold float_remainder. cbv zeta.
        match goal with |- context [if ?c then _ else _] => destruct c end; eexists; reflexivity. }
      cbn [rbind]. destruct (num_gtb (NF r) (NI 0)); reflexivity.
    + unfold rounded_nearest. split.
      * split; (change 2%Q with (inject_Z 2)); rewrite <- inject_Z_mult, <- Zle_Qle; lia.
      * intros [T|T]; change 2%Q with (inject_Z 2) in T; rewrite <- inject_Z_mult in T;
          exfalso; unfold Qeq, inject_Z in T; cbn [Qnum Qden] in T; lia.
  - exists 0. cbn in F, C. injection F as <-. injection C as <-. split.
    + unfold num_remainder. cbn [to_float rbind]. rewrite one_float. cbn.
      reflexivity.
    + split; [split; discriminate|]. intros [T|T]; discriminate T.
  - specialize (Hmin s m e eq_refl).
    unfold num_remainder. cbn [to_float rbind]. rewrite one_float. cbn [rbind].
    unfold float_remainder. cbv zeta.
    set (e0 := Z.min e (-52)).
    set (a := Zpos m * 2 ^ (e - e0)).
    assert (B : 4503599627370496 * 2 ^ (-52 - e0) = 2 ^ (- e0)).
    { change 4503599627370496 with (2 ^ 52). rewrite <- Z.pow_add_r by lia.
      f_equal. lia. }
    rewrite B. set (b := 2 ^ (- e0)).
    assert (Hb : 0 < b) by (apply Z.pow_pos_nonneg; lia).
    assert (He0 : e0 <= 0) by lia.
    set (V := if s then - a else a).
    assert (Hq : (inject_Z (signed s m) * Qpower (inject_Z 2) e
                  == inject_Z V * Qpower (inject_Z 2) e0)%Q).
    { rewrite (dyadic_shift _ e e0) by lia. unfold V, a, signed.
      destruct s; [change (Zneg m) with (- Zpos m)|]; rewrite ?Z.mul_opp_l; reflexivity. }
    pose proof (down_ratio V e0 _ He0 Hq zf Rf) as Df.
    pose proof (up_ratio V e0 _ He0 Hq zc Rc) as Dc.
    fold b in Df, Dc.
    assert (Ha : 0 < a) by (unfold a; assert (0 < 2 ^ (e - e0)) by (apply Z.pow_pos_nonneg; lia); lia).
    pose proof (Z.div_mod a b ltac:(lia)) as Dm.
    pose proof (Z.mod_pos_bound a b Hb) as Mb.
    set (k := a / b) in *. set (r := a mod b) in *.
    assert (Dm' : a = k * b + r) by lia.
    pose proof (nearest_cases a b k r Hb Dm' Mb) as NC. cbv zeta in NC.
    set (up := match Z.compare (2 * r) b with
               | Lt => false | Gt => true | Eq => negb (Z.even k) end) in NC.
    match goal with |- context [if ?x =? 0 then _ else _] =>
      assert (R' : x = if up then r - b else r)
    end.
    { unfold up. destruct (2 * r ?= b); try reflexivity. destruct (Z.even k); reflexivity. }
    rewrite R'.
    (* the result of the remainder is positive exactly when we round down *)
    assert (G : forall y, y <> 0 ->
      num_gtb (NF (set_sign s (binary_normalize prec53 emax1024 y e0 false))) (NI 0)
      = (if s then y <? 0 else 0 <? y)).
    { intros y Hy.
      destruct (normalize_sign y e0 false Hy ltac:(unfold emin64 in *; lia)) as [N1|(m' & e' & N1)];
        rewrite N1; unfold num_gtb, num_compare;
        destruct s, (y <? 0) eqn:Ey; cbn [set_sign SFopp negb ext_of];
        try (destruct (0 <? y) eqn:Ey'; lia); try reflexivity;
        unfold dy_compare;
        assert (P : 0 < 2 ^ (e' - Z.min e' 0)) by (apply Z.pow_pos_nonneg; lia);
        rewrite Z.mul_0_l.
      - destruct (Z.compare_spec (Z.pos m' * 2 ^ (e' - Z.min e' 0)) 0); lia.
      - destruct (Z.compare_spec (Z.neg m' * 2 ^ (e' - Z.min e' 0)) 0); nia.
      - destruct (Z.compare_spec (Z.neg m' * 2 ^ (e' - Z.min e' 0)) 0); nia.
      - destruct (Z.compare_spec (Z.pos m' * 2 ^ (e' - Z.min e' 0)) 0); lia. }
    assert (R0 : r = 0 -> up = false).
    { intro E. unfold up. rewrite E. destruct (Z.compare_spec (2 * 0) b); try reflexivity; lia. }
    assert (zf = if s then (if r =? 0 then - k else - k - 1) else k).
    { unfold V in Df. destruct s; [destruct (Z.eqb_spec r 0)|]; nia. }
    assert (zc = if s then - k else (if r =? 0 then k else k + 1)).
    { unfold V in Dc. destruct s; [|destruct (Z.eqb_spec r 0)]; nia. }
    assert (Hz : forall z, z = (if s then - (if up then k + 1 else k) else if up then k + 1 else k) ->
              rounded_nearest (inject_Z (signed s m) * Qpower (inject_Z 2) e)%Q z).
    { intros z ->. apply (nearest_ratio V e0 _ He0 Hq); fold b; unfold V; destruct NC as [N1 N2].
      - destruct s; lia.
      - destruct s; [rewrite Z.even_opp|]; intro T; apply N2; lia. }
    destruct ((if up then r - b else r) =? 0) eqn:Ez.
    + apply Z.eqb_eq in Ez.
      assert (Er : r = 0) by (destruct up; lia).
      cbn [rbind]. exists zc. split.
      * replace (num_gtb (NF (S754_zero s)) (NI 0)) with false by reflexivity. exact C.
      * apply Hz. rewrite (R0 Er). destruct (Z.eqb_spec r 0); [|contradiction]. destruct s; assumption.
    + apply Z.eqb_neq in Ez. cbn [rbind]. rewrite G by exact Ez.
      destruct (Z.eq_dec r 0) as [Er|Er]; [rewrite (R0 Er) in Ez; lia|].
      destruct (Z.eqb_spec r 0); [contradiction|].
      destruct s, up;
        match goal with |- context [if ?c then _ else _] =>
          destruct c eqn:Ec; [exists zf; split; [exact F|]|exists zc; split; [exact C|]] end;
        try (exfalso; lia); apply Hz; lia.
Qed.

Lemma round_unary : forall fmt t q, exact (to_number t) = Some q ->
  (exists z, run_op fmt "|<" [PScal t] = ret (scal_Z z) /\ rounded_down q z)
  /\ (exists z, run_op fmt ">|" [PScal t] = ret (scal_Z z) /\ rounded_up q z)
  /\ (exists z, run_op fmt "RZ" [PScal t] = ret (scal_Z z) /\ rounded_in q z)
  /\ (match to_number t with NI z => is_inf (float_of_Z_raw z) = false | NF _ => True end ->
      exists z, run_op fmt "RN" [PScal t] = ret (scal_Z z) /\ rounded_nearest q z).
Proof.
  intros fmt t q H.
  assert (one : num_eqb (NI 1) (NI 0) = false /\ num_eqb (NI 1) (NI 1) = true)
    by (split; reflexivity). destruct one as [o0 o1].
  repeat split.
  - destruct (floor_exact _ _ H) as (z & E & R). exists z. split; [|exact R].
    run_plain. unfold op_FLOOR, op_round. rewrite o0, o1, E. reflexivity.
  - destruct (ceil_exact _ _ H) as (z & E & R). exists z. split; [|exact R].
    run_plain. unfold op_CEIL, op_round. rewrite o0, o1, E. reflexivity.
  - destruct (trunc_exact _ _ H) as (z & E & R). exists z. split; [|exact R].
    run_plain. unfold op_ROUNDZERO, op_round. rewrite o0, o1, E. reflexivity.
  - intro Hf. destruct (nearest_exact _ _ H Hf) as (z & E & R). exists z. split; [|exact R].
    run_plain. unfold op_ROUNDNEAREST. rewrite o0, o1.
    destruct (num_remainder (to_number t) (NI 1)) as [r|]; [|discriminate E].
    cbn [rbind] in E |- *. rewrite E. reflexivity.
Qed.

(** ** Rounding to a multiple of an integer *)

(** Where the fraction [r / b] lies. *)
Definition frac_loc (b r : Z) : location :=
  if r =? 0 then loc_Exact else loc_Inexact (Z.compare (2 * r) b).

Lemma rne_spec : forall q b r, 0 < b -> 0 <= r < b ->
  let m := round_nearest_even q (frac_loc b r) in
  2 * (m * b) <= 2 * (q * b + r) + b /\ 2 * (q * b + r) <= 2 * (m * b) + b
  /\ q <= m <= q + 1 /\ (r = 0 -> m = q).
Proof.
  intros q b r Hb Hr m. subst m. unfold frac_loc.
  destruct (Z.eqb_spec r 0); cbn [round_nearest_even].
  - subst r. nia.
  - destruct (Z.compare_spec (2 * r) b); [destruct (Z.even q)|..]; nia.
Qed.

Lemma new_location_spec : forall b r, 0 < b -> 0 <= r < b ->
  new_location b r = frac_loc b r.
Proof.
  intros b r Hb Hr. unfold new_location, frac_loc.
  destruct (Z.even b) eqn:Ev; unfold new_location_even, new_location_odd.
  - destruct r; reflexivity.
  - destruct (Z.eqb_spec r 0) as [->|Hr0]; [reflexivity|].
    destruct r as [|r|r]; try lia. cbn [Zeq_bool Z.compare]. f_equal.
    destruct (Z.compare_spec (2 * Z.pos r + 1) b), (Z.compare_spec (2 * Z.pos r) b);
      try reflexivity; try lia.
    exfalso. subst b. rewrite Z.even_mul in Ev. discriminate.
Qed.

Lemma shr_1_frac : forall q b r, 0 < q -> 0 < b -> 0 <= r < b ->
  shr_1 (shr_record_of_loc q (frac_loc b r))
  = shr_record_of_loc (q / 2) (frac_loc (2 * b) (q mod 2 * b + r)).
Proof.
  intros q b r Hq Hb Hr. unfold frac_loc.
  assert (Q : exists c, c = q / 2 /\ (q = 2 * c /\ q mod 2 = 0 \/ q = 2 * c + 1 /\ q mod 2 = 1)).
  { exists (q / 2). split; [reflexivity|]. pose proof (Z.div_mod q 2 ltac:(lia)).
    pose proof (Z.mod_pos_bound q 2 ltac:(lia)). lia. }
  destruct Q as (c & <- & [[-> ->]|[-> ->]]).
  - rewrite Z.mul_0_l, Z.add_0_l. destruct c as [|c|c]; try lia.
    destruct (Z.eqb_spec r 0); [reflexivity|].
    destruct (Z.compare_spec (2 * r) (2 * b)); try lia.
    destruct (2 * r ?= b); reflexivity.
  - rewrite Z.mul_1_l. destruct (Z.eqb_spec (b + r) 0); [lia|].
    assert (S1 : forall r0 s0, shr_1 {| shr_m := 2 * c + 1; shr_r := r0; shr_s := s0 |}
                 = {| shr_m := c; shr_r := true; shr_s := r0 || s0 |}).
    { intros r0 s0. destruct c as [|c|c]; try lia; reflexivity. }
    destruct (Z.eqb_spec r 0).
    + subst r. cbn [shr_record_of_loc]. rewrite S1.
      destruct (Z.compare_spec (2 * (b + 0)) (2 * b)); try lia. reflexivity.
    + destruct (Z.compare_spec (2 * (b + r)) (2 * b)); try lia.
      destruct (2 * r ?= b); cbn [shr_record_of_loc]; rewrite S1; reflexivity.
Qed.

Lemma loc_of_record_frac : forall q b r,
  loc_of_shr_record (shr_record_of_loc q (frac_loc b r)) = frac_loc b r
  /\ shr_m (shr_record_of_loc q (frac_loc b r)) = q.
Proof.
  intros q b r. unfold frac_loc. destruct (r =? 0); [|destruct (2 * r ?= b)]; split; reflexivity.
Qed.

Lemma digits_between : forall q k, 0 <= k -> 2 ^ k <= q < 2 ^ (k + 1) -> Zdigits2 q = k + 1.
Proof.
  intros q k Hk H. assert (0 < 2 ^ k) by (apply Z.pow_pos_nonneg; lia).
  rewrite HalveProof.Zdigits2_log2 by lia. f_equal. apply Z.log2_unique; lia.
Qed.

(** Rounding a 53-bit integer and a fraction. *)
Lemma round_53 : forall s q b r e, 0 < b -> 0 <= r < b -> 2 ^ 52 <= q < 2 ^ 53 ->
  emin64 <= e <= 0 ->
  exists m E, binary_round_aux prec53 emax1024 s q e (frac_loc b r) = S754_finite s m E
    /\ (inject_Z (Zpos m) * Qpower (inject_Z 2) E
        == inject_Z (round_nearest_even q (frac_loc b r)) * Qpower (inject_Z 2) e)%Q.
Proof.
  intros s q b r e Hb Hr Hq He. unfold binary_round_aux, shr_fexp at 1.
  rewrite (digits_between q 52) by lia.
  assert (F : fexp prec53 emax1024 (52 + 1 + e) - e = 0)
    by (unfold fexp, SpecFloat.emin, prec53, emax1024, emin64 in *; lia).
  rewrite F. cbn [shr].
  destruct (loc_of_record_frac q b r) as [-> ->].
  destruct (rne_spec q b r Hb Hr) as (_ & _ & M & _).
  set (m := round_nearest_even q (frac_loc b r)) in *.
  destruct (Z.eq_dec m (2 ^ 53)) as [Em|Em].
  - rewrite Em. unfold shr_fexp. rewrite (digits_between (2 ^ 53) 53) by lia.
    assert (F' : fexp prec53 emax1024 (53 + 1 + e) - e = 1)
      by (unfold fexp, SpecFloat.emin, prec53, emax1024, emin64 in *; lia).
    rewrite F'. cbn [shr iter_pos shr_record_of_loc].
    change (shr_m (shr_1 {| shr_m := 2 ^ 53; shr_r := false; shr_s := false |})) with (2 ^ 52).
    change (2 ^ 52) with (Zpos 4503599627370496). cbv iota.
    replace (e + 1 <=? emax1024 - prec53) with true by (unfold emax1024, prec53; lia).
    eexists _, _. split; [reflexivity|].
    rewrite (dyadic_shift _ (e + 1) e) by lia. replace (e + 1 - e) with 1 by lia. reflexivity.
  - unfold shr_fexp. rewrite (digits_between m 52) by lia.
    rewrite F. cbn [shr shr_record_of_loc shr_m].
    clearbody m. destruct m as [|m|m]; try lia.
    replace (e <=? emax1024 - prec53) with true by (unfold emax1024, prec53; lia).
    eexists _, _. split; reflexivity.
Qed.

Lemma round_54 : forall s q b r e, 0 < b -> 0 <= r < b -> 2 ^ 53 <= q < 2 ^ 54 ->
  emin64 <= e < 0 ->
  binary_round_aux prec53 emax1024 s q e (frac_loc b r)
  = binary_round_aux prec53 emax1024 s (q / 2) (e + 1) (frac_loc (2 * b) (q mod 2 * b + r)).
Proof.
  intros s q b r e Hb Hr Hq He. unfold binary_round_aux, shr_fexp at 1 3.
  assert (Hq2 : 2 ^ 52 <= q / 2 < 2 ^ 53)
    by (pose proof (Z.div_mod q 2 ltac:(lia)); pose proof (Z.mod_pos_bound q 2 ltac:(lia)); lia).
  rewrite (digits_between q 53), (digits_between (q / 2) 52) by lia.
  assert (F : fexp prec53 emax1024 (53 + 1 + e) - e = 1)
    by (unfold fexp, SpecFloat.emin, prec53, emax1024, emin64 in *; lia).
  assert (F' : fexp prec53 emax1024 (52 + 1 + (e + 1)) - (e + 1) = 0)
    by (unfold fexp, SpecFloat.emin, prec53, emax1024, emin64 in *; lia).
  rewrite F, F'. cbn [shr iter_pos]. rewrite shr_1_frac by lia. reflexivity.
Qed.

(** A 53-bit approximation [m * 2^e] of [a / b] is on the same side of every
    integer as [a / b] is. *)
Lemma same_side : forall a b q r e m, 0 < a < 2 ^ 53 -> 0 < b -> e <= 0 ->
  (* a / b = (q + r / B) * 2^e *)
  forall B, 0 < B -> 0 <= r < B -> 2 ^ 52 <= q ->
  a * 2 ^ (- e) * B = b * (q * B + r) ->
  m = round_nearest_even q (frac_loc B r) ->
  (forall z, a < z * b -> m < z * 2 ^ (- e)) /\ (forall z, z * b < a -> z * 2 ^ (- e) < m)
  /\ (forall z, a = z * b -> m = z * 2 ^ (- e)).
Proof.
  intros a b q r e m Ha Hb He B HB Hr Hq E ->.
  destruct (rne_spec q B r HB Hr) as (R1 & R2 & R3 & R4).
  set (m := round_nearest_even q (frac_loc B r)) in *. clearbody m.
  set (P := 2 ^ (- e)) in *. assert (HP : 0 < P) by (apply Z.pow_pos_nonneg; lia).
  clearbody P.
  set (T := 2 ^ 52) in *. assert (ET : 2 ^ 53 = 2 * T) by reflexivity. rewrite ET in Ha.
  assert (HT : 0 < T) by reflexivity. clearbody T.
  set (y := q * B + r) in *.
  assert (Hy : T * B <= y) by (unfold y; nia).
  assert (K : 2 * a < 4 * T) by lia.
  assert (L : b * T <= a * P) by nia.
  repeat split; intros z Hz.
  - apply Z.nle_gt. intro C.
    (* z P B <= m B <= y + B/2, and a P B = b y, a + 1 <= z b *)
    assert (C1 : 2 * (z * P * B) <= 2 * y + B) by nia.
    assert (C2 : 2 * (b * z * P * B) <= 2 * (a * P * B) + b * B) by nia.
    assert (C3 : 2 * ((a + 1) * (P * B)) <= 2 * (a * P * B) + b * B) by nia.
    assert (C4 : 2 * P <= b) by nia.
    nia.
  - apply Z.nle_gt. intro C.
    assert (C1 : 2 * y <= 2 * (z * P * B) + B) by nia.
    assert (C2 : 2 * (a * P * B) <= 2 * (b * z * P * B) + b * B) by nia.
    assert (C3 : 2 * (a * P * B) <= 2 * ((a - 1) * (P * B)) + b * B) by nia.
    assert (C4 : 2 * P <= b) by nia.
    nia.
  - subst a. assert (z * P * B = y) by nia.
    assert (r = 0). { unfold y in *. assert (D : r = B * (z * P - q)) by lia.
      set (d := z * P - q) in *. clearbody d. assert (d < 1) by nia. assert (-1 < d) by nia. nia. }
    rewrite R4 by assumption. unfold y in *. nia.
Qed.

Lemma small_ratio : forall s a b, Zpos a < 2 ^ 53 -> Zpos b < 2 ^ 53 ->
  exists m E e M, round_ratio s a b = S754_finite s m E /\ e <= 0
    /\ (inject_Z (Zpos m) * Qpower (inject_Z 2) E == inject_Z M * Qpower (inject_Z 2) e)%Q
    /\ (forall z, Zpos a < z * Zpos b -> M < z * 2 ^ (- e))
    /\ (forall z, z * Zpos b < Zpos a -> z * 2 ^ (- e) < M)
    /\ (forall z, Zpos a = z * Zpos b -> M = z * 2 ^ (- e)).
Proof.
  intros s a b Ha Hb. unfold round_ratio, SFdiv_core_binary. cbv zeta.
  rewrite !Z.add_0_r, !HalveProof.Zdigits2_log2 by lia.
  destruct (Z.log2_spec (Zpos a) ltac:(lia)) as [La Ua].
  destruct (Z.log2_spec (Zpos b) ltac:(lia)) as [Lb Ub].
  pose proof (Z.log2_nonneg (Zpos a)) as Pa. pose proof (Z.log2_nonneg (Zpos b)) as Pb.
  assert (Ga : Z.log2 (Zpos a) < 53) by (apply Z.log2_lt_pow2; lia).
  assert (Gb : Z.log2 (Zpos b) < 53) by (apply Z.log2_lt_pow2; lia).
  set (la := Z.log2 (Zpos a)) in *. set (lb := Z.log2 (Zpos b)) in *.
  set (k := 53 + lb - la).
  assert (F : Z.min (fexp prec53 emax1024 (la + 1 - (lb + 1))) (0 - 0) = - k)
    by (unfold fexp, SpecFloat.emin, prec53, emax1024, k; lia).
  rewrite F. replace (0 - 0 - - k) with k by lia.
  assert (Hk : 0 < k) by (unfold k; lia).
  replace (match k with 0 => Zpos a | Zpos _ => Z.shiftl (Zpos a) k | Zneg _ => 0 end)
    with (Zpos a * 2 ^ k) by (destruct k; try lia; rewrite Z.shiftl_mul_pow2 by lia; reflexivity).
  pose proof (Z_div_mod (Zpos a * 2 ^ k) (Zpos b) ltac:(lia)) as D.
  destruct (Z.div_eucl (Zpos a * 2 ^ k) (Zpos b)) as [q r]. destruct D as [D Dr].
  rewrite new_location_spec by lia.
  assert (Kp : 2 ^ k * 2 ^ la = 2 ^ 53 * 2 ^ lb) by (rewrite <- !Z.pow_add_r by lia; f_equal; unfold k; lia).
  assert (P1 : 0 < 2 ^ la) by (apply Z.pow_pos_nonneg; lia).
  assert (P2 : 0 < 2 ^ lb) by (apply Z.pow_pos_nonneg; lia).
  assert (P3 : 0 < 2 ^ k) by (apply Z.pow_pos_nonneg; lia).
  rewrite Z.pow_succ_r in Ua, Ub by lia.
  assert (Qlo : 2 ^ 52 <= q).
  { apply Z.nlt_ge. intro C. change (2 ^ 53) with (2 * 2 ^ 52) in Kp.
    assert (C1 : Zpos b * (q + 1) <= Zpos b * 2 ^ 52) by nia. nia. }
  assert (Qhi : q < 2 ^ 54).
  { apply Z.nle_gt. intro C. change (2 ^ 54) with (2 * 2 ^ 53) in C.
    assert (C1 : 2 ^ lb * (2 * 2 ^ 53) <= Zpos b * q) by nia. nia. }
  destruct (Z_lt_ge_dec q (2 ^ 53)) as [Q|Q].
  - destruct (round_53 s q (Zpos b) r (- k)) as (m & E & R & V); try lia;
      [unfold emin64, k; lia|].
    exists m, E, (- k), (round_nearest_even q (frac_loc (Zpos b) r)).
    split; [exact R|]. split; [lia|]. split; [exact V|].
    apply (same_side (Zpos a) (Zpos b) q r (- k) _ ltac:(lia) ltac:(lia) ltac:(lia)
             (Zpos b) ltac:(lia) ltac:(lia) Qlo); [|reflexivity].
    rewrite Z.opp_involutive. rewrite D. ring.
  - rewrite round_54 by (unfold emin64, k; lia).
    pose proof (Z.div_mod q 2 ltac:(lia)) as D2. pose proof (Z.mod_pos_bound q 2 ltac:(lia)) as M2.
    set (q2 := q / 2) in *. set (c := q mod 2) in *.
    assert (R2 : 0 <= c * Zpos b + r < 2 * Zpos b) by nia.
    destruct (round_53 s q2 (2 * Zpos b) (c * Zpos b + r) (- k + 1)) as (m & E & R & V); try lia;
      [unfold emin64, k; lia|].
    exists m, E, (- k + 1), (round_nearest_even q2 (frac_loc (2 * Zpos b) (c * Zpos b + r))).
    split; [exact R|]. split; [lia|]. split; [exact V|].
    apply (same_side (Zpos a) (Zpos b) q2 (c * Zpos b + r) (- k + 1) _ ltac:(lia) ltac:(lia) ltac:(lia)
             (2 * Zpos b) ltac:(lia) R2 ltac:(lia)); [|reflexivity].
    replace (- (- k + 1)) with (k - 1) by lia.
    assert (K1 : 2 ^ k = 2 * 2 ^ (k - 1)) by (rewrite <- Z.pow_succ_r by lia; f_equal; lia).
    rewrite K1 in D. rewrite D2 in D. nia.
Qed.

Lemma small_quotient : forall a p, - 2 ^ 53 < a < 2 ^ 53 -> 0 < p < 2 ^ 53 ->
  exists x q, num_truediv (NI a) (NI p) = Val x /\ exact x = Some q
    /\ (forall z, (inject_Z z <= q)%Q <-> z * p <= a)
    /\ (forall z, (q <= inject_Z z)%Q <-> a <= z * p).
Proof.
  intros a p Ha Hp. unfold num_truediv. cbn [lift2]. destruct p as [|p|p]; try lia.
  destruct a as [|a|a].
  - exists (NF (S754_zero false)), (inject_Z 0). split; [reflexivity|]. split; [reflexivity|].
    split; intro z; rewrite <- Zle_Qle; nia.
  - destruct (small_ratio false a p ltac:(lia) ltac:(lia)) as (m & E & e & M & R & He & V & H1 & H2 & H3).
    exists (NF (S754_finite false m E)), (inject_Z (Zpos m) * Qpower (inject_Z 2) E)%Q.
    split. { unfold int_truediv. change (xorb (Z.pos a <? 0) (Z.pos p <? 0)) with false.
             change (Z.to_pos (Z.abs (Z.pos a))) with a. change (Z.to_pos (Z.abs (Z.pos p))) with p.
             rewrite R. reflexivity. }
    split; [reflexivity|].
    split; intro z; rewrite V; [rewrite dyadic_ge by exact He|rewrite dyadic_le by exact He];
      specialize (H1 z); specialize (H2 z); specialize (H3 z);
      destruct (Z.lt_trichotomy (Zpos a) (z * Zpos p)) as [C|[C|C]]; lia.
  - destruct (small_ratio true a p ltac:(lia) ltac:(lia)) as (m & E & e & M & R & He & V & H1 & H2 & H3).
    exists (NF (S754_finite true m E)), (inject_Z (Zneg m) * Qpower (inject_Z 2) E)%Q.
    split. { unfold int_truediv. change (xorb (Z.neg a <? 0) (Z.pos p <? 0)) with true.
             change (Z.to_pos (Z.abs (Z.neg a))) with a. change (Z.to_pos (Z.abs (Z.pos p))) with p.
             rewrite R. reflexivity. }
    split; [reflexivity|].
    assert (V' : (inject_Z (Zneg m) * Qpower (inject_Z 2) E
                  == inject_Z (- M) * Qpower (inject_Z 2) e)%Q).
    { change (Zneg m) with (- Zpos m). rewrite !inject_Z_opp.
      setoid_replace (- inject_Z (Zpos m) * Qpower (inject_Z 2) E)%Q
        with (- (inject_Z (Zpos m) * Qpower (inject_Z 2) E))%Q by ring.
      rewrite V. ring. }
    change (Zneg a) with (- Zpos a).
    split; intro z; rewrite V'; [rewrite dyadic_ge by exact He|rewrite dyadic_le by exact He];
      specialize (H1 (- z)); specialize (H2 (- z)); specialize (H3 (- z));
      destruct (Z.lt_trichotomy (Zpos a) (- z * Zpos p)) as [C|[C|C]]; lia.
Qed.

(** Rounding an integer to a multiple of another. *)
Lemma round_multiple : forall fmt a p, - 2 ^ 53 < a < 2 ^ 53 -> - 2 ^ 53 < p < 2 ^ 53 ->
  p <> 0 ->
  (exists k, run_op fmt "|<" [scal_Z a; scal_Z p] = ret (scal_Z (k * p))
     /\ k * p <= a < k * p + Z.abs p)
  /\ (exists k, run_op fmt ">|" [scal_Z a; scal_Z p] = ret (scal_Z (k * p))
     /\ k * p - Z.abs p < a <= k * p)
  /\ (exists k, run_op fmt "RZ" [scal_Z a; scal_Z p] = ret (scal_Z (k * p))
     /\ (0 <= a -> k * p <= a < k * p + Z.abs p)
     /\ (a <= 0 -> k * p - Z.abs p < a <= k * p)).
Proof.
  intros fmt a p Ha Hp Hp0.
  assert (Pick : forall (rnd : num -> res Z) (P : Q -> Z -> Prop) w,
    (forall x q, exact x = Some q -> exists z, rnd x = Val z /\ P q z) ->
    exists k q, op_round w rnd (scal_Z a) (Some (scal_Z p)) = ret (scal_Z (k * p))
      /\ (forall z, (inject_Z z <= q)%Q <-> z * Z.abs p <= a)
      /\ (forall z, (q <= inject_Z z)%Q <-> a <= z * Z.abs p)
      /\ P q (if p <? 0 then - k else k)).
  { intros rnd P w HP. unfold op_round, scal_Z. rewrite !NumFacts.to_number_str.
    cbn [num_abs]. rewrite !num_eqb_NI.
    replace (Z.abs p =? 0) with false by lia.
    destruct (Z.eqb_spec (Z.abs p) 1) as [E1|E1].
    - destruct (HP (NI a) (inject_Z a) eq_refl) as (z & R & C).
      exists (if p <? 0 then - z else z), (inject_Z a). rewrite R. cbn [rbind].
      split; [|split; [|split]].
      + replace ((if p <? 0 then - z else z) * p) with z by (destruct (Z.ltb_spec p 0); nia).
        reflexivity.
      + intro y. rewrite <- Zle_Qle, E1. lia.
      + intro y. rewrite <- Zle_Qle, E1. lia.
      + replace (if p <? 0 then - (if p <? 0 then - z else z) else if p <? 0 then - z else z)
          with z by (destruct (p <? 0); lia). exact C.
    - destruct (small_quotient a (Z.abs p) Ha ltac:(lia)) as (x & q & T & X & H1 & H2).
      destruct (HP x q X) as (z & R & C).
      exists (if p <? 0 then - z else z), q. rewrite T. cbn [rbind]. rewrite R. cbn [rbind].
      split; [|split; [exact H1|split; [exact H2|]]].
      + unfold num_mul. cbn [lift2 rbind]. unfold scal_num. cbn [str_of_num].
        replace ((if p <? 0 then - z else z) * p) with (z * Z.abs p)
          by (destruct (Z.ltb_spec p 0); nia).
        reflexivity.
      + replace (if p <? 0 then - (if p <? 0 then - z else z) else if p <? 0 then - z else z)
          with z by (destruct (p <? 0); lia). exact C. }
  assert (Down : forall k q, (forall z, (inject_Z z <= q)%Q <-> z * Z.abs p <= a) ->
            rounded_down q (if p <? 0 then - k else k) -> k * p <= a < k * p + Z.abs p).
  { intros k q H1 [D1 D2]. apply H1 in D1.
    assert (D3 : ~ (if p <? 0 then - k else k) + 1 <= a / Z.abs p).
    { intro C. apply (Qlt_not_le _ _ D2). apply H1.
      pose proof (Z.div_mod a (Z.abs p) ltac:(lia)). pose proof (Z.mod_pos_bound a (Z.abs p) ltac:(lia)). nia. }
    assert (D4 : a < ((if p <? 0 then - k else k) + 1) * Z.abs p).
    { apply Z.nle_gt. intro C. apply D3.
      apply Z.div_le_lower_bound; lia. }
    destruct (Z.ltb_spec p 0); nia. }
  assert (Up : forall k q, (forall z, (q <= inject_Z z)%Q <-> a <= z * Z.abs p) ->
            rounded_up q (if p <? 0 then - k else k) -> k * p - Z.abs p < a <= k * p).
  { intros k q H1 [D1 D2]. apply H1 in D2.
    assert (D4 : ((if p <? 0 then - k else k) - 1) * Z.abs p < a).
    { apply Z.nle_gt. intro C. apply (Qlt_not_le _ _ D1). apply H1. exact C. }
    destruct (Z.ltb_spec p 0); nia. }
  split; [|split].
  - destruct (Pick num_floor rounded_down "FLOOR" floor_exact) as (k & q & R & H1 & H2 & C).
    exists k. split; [run_plain; exact R|]. eapply Down; eauto.
  - destruct (Pick num_ceil rounded_up "CEIL" ceil_exact) as (k & q & R & H1 & H2 & C).
    exists k. split; [run_plain; exact R|]. eapply Up; eauto.
  - destruct (Pick num_trunc rounded_in "ROUNDZERO" trunc_exact) as (k & q & R & H1 & H2 & C).
    exists k. split; [run_plain; exact R|]. destruct C as [C1 C2]. split; intro Hs.
    + eapply Down; eauto. apply C1. apply (H1 0). lia.
    + eapply Up; eauto. apply C2. apply (H2 0). lia.
Qed.

(** ** Integers that have a float *)

Lemma shr_fexp_max : forall m e l,
  snd (shr_fexp prec53 emax1024 m e l) = Z.max e (fexp prec53 emax1024 (Zdigits2 m + e)).
Proof.
  intros m e l. unfold shr_fexp, shr.
  destruct (fexp prec53 emax1024 (Zdigits2 m + e) - e) eqn:E; cbn [snd]; lia.
Qed.

Lemma shr_fexp_div : forall m e l, 0 <= m ->
  shr_m (fst (shr_fexp prec53 emax1024 m e l))
  = m / 2 ^ (snd (shr_fexp prec53 emax1024 m e l) - e).
Proof.
  intros m e l Hm. rewrite shr_fexp_max. unfold shr_fexp, shr.
  assert (H0 : shr_m (shr_record_of_loc m l) = m) by (destruct l as [|[]]; reflexivity).
  destruct (fexp prec53 emax1024 (Zdigits2 m + e) - e) as [|p|p] eqn:E; cbn [fst].
  - rewrite H0. replace (Z.max _ _ - e) with 0 by lia. rewrite Z.div_1_r. reflexivity.
  - rewrite HalveProof.iter_pos_iter, shr_iter_div, H0, positive_nat_Z by lia.
    f_equal. f_equal. lia.
  - rewrite H0. replace (Z.max _ _ - e) with 0 by lia. rewrite Z.div_1_r. reflexivity.
Qed.

Lemma digits_le : forall m k, 0 <= k -> 0 <= m <= 2 ^ k -> Zdigits2 m <= k + 1.
Proof.
  intros m k Hk Hm. destruct (Z.eq_dec m 0) as [->|]; [cbn; lia|].
  rewrite HalveProof.Zdigits2_log2 by lia.
  assert (Z.log2 m <= Z.log2 (2 ^ k)) by (apply Z.log2_le_mono; lia).
  rewrite Z.log2_pow2 in * by lia. lia.
Qed.

Lemma round_aux_fits : forall s m e l, 0 < m -> e <= 0 -> Zdigits2 m + e <= 1023 ->
  0 < Zdigits2 m + e ->
  is_inf (binary_round_aux prec53 emax1024 s m e l) = false.
Proof.
  intros s m e l Hm He Hd Hd0. unfold binary_round_aux.
  pose proof (shr_fexp_max m e l) as E1. pose proof (shr_fexp_div m e l ltac:(lia)) as M1.
  destruct (shr_fexp prec53 emax1024 m e l) as [r1 e1]. cbn [fst snd] in E1, M1.
  set (m1 := round_nearest_even (shr_m r1) (loc_of_shr_record r1)).
  assert (Hm1 : m1 <= shr_m r1 + 1 /\ shr_m r1 <= m1).
  { unfold m1, round_nearest_even. destruct (loc_of_shr_record r1) as [|[]];
      try destruct (Z.even _); lia. }
  pose proof (shr_fexp_max m1 e1 loc_Exact) as E2.
  destruct (shr_fexp prec53 emax1024 m1 e1 loc_Exact) as [r2 e2]. cbn [snd] in E2.
  destruct (shr_m r2); try reflexivity.
  assert (e2 <= 971).
  { set (d := Zdigits2 m + e) in *.
    assert (e1 <= 970) by (unfold fexp, SpecFloat.emin, prec53, emax1024 in E1; lia).
    assert (e1 <= d) by (unfold fexp, SpecFloat.emin, prec53, emax1024 in E1; lia).
    assert (e <= e1) by lia.
    assert (D : Zdigits2 m1 <= d - e1 + 1).
    { apply digits_le; [lia|].
      assert (Hlt : m < 2 ^ (d - e)).
      { replace (d - e) with (Zdigits2 m) by (unfold d; lia).
        rewrite HalveProof.Zdigits2_log2 by lia.
        destruct (Z.log2_spec m Hm) as [_ U]. exact U. }
      assert (P : 0 < 2 ^ (e1 - e)) by (apply Z.pow_pos_nonneg; lia).
      assert (shr_m r1 < 2 ^ (d - e1)).
      { rewrite M1. apply Z.div_lt_upper_bound; [exact P|].
        rewrite <- Z.pow_add_r by lia. replace (e1 - e + (d - e1)) with (d - e) by lia. exact Hlt. }
      assert (0 <= shr_m r1) by (rewrite M1; apply Z.div_pos; lia). lia. }
    unfold fexp, SpecFloat.emin, prec53, emax1024 in E2. lia. }
  replace (Z.leb e2 (emax1024 - prec53)) with true by (unfold emax1024, prec53; lia).
  reflexivity.
Qed.

Lemma int_has_float : forall z, Z.abs z < 2 ^ 1000 -> is_inf (float_of_Z_raw z) = false.
Proof.
  assert (H : forall s p, Zpos p < 2 ^ 1000 ->
            is_inf (binary_round prec53 emax1024 s p 0) = false).
  { intros s p Hp. unfold binary_round. rewrite Z.add_0_r.
    assert (D : 0 < Zdigits2 (Zpos p) <= 1001).
    { split; [rewrite HalveProof.Zdigits2_log2 by lia; pose proof (Z.log2_nonneg (Zpos p)); lia|].
      change 1001 with (1000 + 1). apply digits_le; lia. }
    unfold shl_align. change (Zpos (digits2_pos p)) with (Zdigits2 (Zpos p)).
    rewrite Z.sub_0_r.
    destruct (fexp prec53 emax1024 (Zdigits2 (Zpos p))) as [|k|k] eqn:E;
      try (apply round_aux_fits; lia).
    assert (S2 : Zpos (shift_pos k p) = Zpos p * 2 ^ Zpos k).
    { rewrite shift_pos_correct. rewrite Zpower_pos_nat, Zpower_nat_Z, positive_nat_Z. ring. }
    rewrite S2. apply round_aux_fits; try lia.
    - rewrite HalveProof.Zdigits2_shift by lia. lia.
    - rewrite HalveProof.Zdigits2_shift by lia. lia. }
  intros [|p|p] Hz; unfold float_of_Z_raw, binary_normalize; [reflexivity| |]; apply H, Hz.
Qed.
