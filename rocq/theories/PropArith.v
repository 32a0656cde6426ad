(** * Properties C80, C81: powers, signs and rounding *)

From Coq Require Import String List NArith ZArith QArith Bool Arith Lia.
From Coq Require Import Floats.SpecFloat.
From Verif Require Import PyStr PyNum PTypes Ops OpsSeq Apply Spec SpecRun SpecArith.
From Verif Require NumCmp ArithProof RunOp.
Import ListNotations.
Local Open Scope string_scope.
Local Open Scope list_scope.
Local Open Scope Z_scope.

(** ** C80: powers and the other one-step integer operators *)

(** A power with a non-negative exponent is the product of that many copies,
    however long the numerals are; [EE] multiplies by that many tens. *)
Theorem C80_power : forall fmt na a nb b n, decimal a -> decimal b ->
  numeral_value nb b = Z.of_nat n ->
  run_op fmt "**" [PScal (numeral na a); PScal (numeral nb b)]
    = ret (scal_Z (copies_of (numeral_value na a) n))
  /\ run_op fmt "E" [PScal (numeral na a); PScal (numeral nb b)]
    = ret (scal_Z (copies_of (numeral_value na a) n))
  /\ run_op fmt "**" [PScal (numeral nb b)] = ret (scal_Z (copies_of 2 n))
  /\ run_op fmt "E" [PScal (numeral nb b)] = ret (scal_Z (copies_of 2 n))
  /\ run_op fmt "EE" [PScal (numeral na a); PScal (numeral nb b)]
    = ret (scal_Z (numeral_value na a * copies_of 10 n))
  /\ run_op fmt "EE" [PScal (numeral nb b)] = ret (scal_Z (copies_of 10 n)).
Proof.
  intros fmt na a nb b n Da Db. exact (ArithProof.power_numeral fmt na nb a b Da Db n).
Qed.
Print Assumptions C80_power.

(** Zero to a negative power is nil, with a warning. *)
Theorem C80_zero_power : forall fmt na a nb b, decimal a -> decimal b ->
  numeral_value na a = 0 -> numeral_value nb b < 0 ->
  run_op fmt "**" [PScal (numeral na a); PScal (numeral nb b)]
  = (["POW: zero"], Val PNil).
Proof. intros fmt na a nb b Da Db. exact (ArithProof.zero_power_numeral fmt na nb a b Da Db). Qed.
Print Assumptions C80_zero_power.

Theorem C80_simple : forall fmt na a nb b, decimal a -> decimal b ->
  let x := numeral_value na a in let y := numeral_value nb b in
  run_op fmt "SQ" [PScal (numeral na a)] = ret (scal_Z (x * x))
  /\ run_op fmt "DB" [PScal (numeral na a)] = ret (scal_Z (x + x))
  /\ run_op fmt "AB" [PScal (numeral na a)] = ret (scal_Z (Z.max x (- x)))
  /\ run_op fmt "AD" [PScal (numeral na a); PScal (numeral nb b)]
     = ret (scal_Z (Z.max (x - y) (y - x))).
Proof. intros fmt na a nb b Da Db. exact (ArithProof.simple_numeral fmt na nb a b Da Db). Qed.
Print Assumptions C80_simple.

Theorem C80_sign : forall fmt na a, decimal a ->
  exists z, run_op fmt "SG" [PScal (numeral na a)] = ret (scal_Z z)
    /\ (numeral_value na a < 0 -> z = -1) /\ (numeral_value na a = 0 -> z = 0)
    /\ (0 < numeral_value na a -> z = 1).
Proof. intros fmt na a Da. exact (ArithProof.sign_numeral fmt na a Da). Qed.
Print Assumptions C80_sign.

Example C80_ex :
  numeral_value false [0; 6; 4]%N = Z.of_nat 64 /\ copies_of (-3) 3 = -27
  /\ run_op FmtNone "**" [PScal (s_ "-3"); PScal (s_ "064")]
     = ret (PScal (s_ "3433683820292512484657849089281"))
  /\ run_op FmtNone "E" [PScal (s_ "70")] = ret (PScal (s_ "1180591620717411303424"))
  /\ run_op FmtNone "EE" [PScal (s_ "-12"); PScal (s_ "3")] = ret (PScal (s_ "-12000"))
  /\ run_op FmtNone "**" [PScal (s_ "0"); PScal (s_ "0")] = ret (PScal (s_ "1"))
  /\ run_op FmtNone "AD" [PScal (s_ "3"); PScal (s_ "10")] = ret (PScal (s_ "7"))
  /\ run_op FmtNone "SG" [PScal (s_ "-07")] = ret (PScal (s_ "-1")).
Proof. repeat split; vm_compute; reflexivity. Qed.

(** ** C81: rounding *)

(** Every Scalar whose number is finite rounds to the right integer. *)
Theorem C81_round : forall fmt t q, exact (to_number t) = Some q ->
  (exists z, run_op fmt "|<" [PScal t] = ret (scal_Z z) /\ rounded_down q z)
  /\ (exists z, run_op fmt ">|" [PScal t] = ret (scal_Z z) /\ rounded_up q z)
  /\ (exists z, run_op fmt "RZ" [PScal t] = ret (scal_Z z) /\ rounded_in q z).
Proof.
  intros fmt t q H. destruct (ArithProof.round_unary fmt t q H) as (F & C & R & _). auto.
Qed.
Print Assumptions C81_round.

(** So does rounding to the nearest integer, if the number is not an integer
    too long for a float. *)
Theorem C81_nearest : forall fmt t q, exact (to_number t) = Some q ->
  (forall z, to_number t = NI z -> Z.abs z < 2 ^ 1000) ->
  exists z, run_op fmt "RN" [PScal t] = ret (scal_Z z) /\ rounded_nearest q z.
Proof.
  intros fmt t q H Hz. destruct (ArithProof.round_unary fmt t q H) as (_ & _ & _ & R).
  apply R. destruct (to_number t) as [z|f]; [|exact I].
  apply ArithProof.int_has_float, Hz. reflexivity.
Qed.
Print Assumptions C81_nearest.

(** The integers meant by the four roundings are unique. *)
Theorem C81_unique : forall q y z,
  (rounded_down q y -> rounded_down q z -> y = z)
  /\ (rounded_up q y -> rounded_up q z -> y = z)
  /\ (rounded_in q y -> rounded_in q z -> y = z)
  /\ (rounded_nearest q y -> rounded_nearest q z -> y = z).
Proof.
  intros q y z.
  assert (D : rounded_down q y -> rounded_down q z -> y = z).
  { intros [A1 A2] [B1 B2].
    assert (C1 := Qle_lt_trans _ _ _ A1 B2). assert (C2 := Qle_lt_trans _ _ _ B1 A2).
    rewrite <- Zlt_Qlt in C1, C2. lia. }
  assert (U : rounded_up q y -> rounded_up q z -> y = z).
  { intros [A1 A2] [B1 B2].
    assert (C1 := Qlt_le_trans _ _ _ A1 B2). assert (C2 := Qlt_le_trans _ _ _ B1 A2).
    rewrite <- Zlt_Qlt in C1, C2. lia. }
  split; [exact D|]. split; [exact U|]. split.
  - intros [A1 A2] [B1 B2]. destruct (Qlt_le_dec 0 q) as [P|P].
    + apply D; [apply A1|apply B1]; apply Qlt_le_weak, P.
    + apply U; [apply A2|apply B2]; exact P.
  - intros [[A1 A2] AT] [[B1 B2] BT].
    assert (C1 := Qle_trans _ _ _ A1 B2). assert (C2 := Qle_trans _ _ _ B1 A2).
    rewrite <- Zle_Qle in C1, C2.
    destruct (Z.eq_dec y z) as [E|E]; [exact E|exfalso].
    assert (K : y = z + 1 \/ z = y + 1) by lia. destruct K as [K|K]; subst.
    + replace (2 * (z + 1) - 1) with (2 * z + 1) in * by lia.
      assert (Q1 := Qle_antisym _ _ B2 A1).
      pose proof (AT (or_introl Q1)) as T1.
      change (z + 1) with (Z.succ z) in T1.
      rewrite Z.even_succ, <- Z.negb_even, (BT (or_intror Q1)) in T1. discriminate T1.
    + replace (2 * (y + 1) - 1) with (2 * y + 1) in * by lia.
      assert (Q1 := Qle_antisym _ _ A2 B1).
      pose proof (BT (or_introl Q1)) as T1.
      change (y + 1) with (Z.succ y) in T1.
      rewrite Z.even_succ, <- Z.negb_even, (AT (or_intror Q1)) in T1. discriminate T1.
Qed.
Print Assumptions C81_unique.

(** Too large for a float: Python's exception ends the program. *)
Theorem C81_infinite : forall fmt t, exact (to_number t) = None ->
  run_op fmt "|<" [PScal t] = raise OverflowError
  /\ run_op fmt ">|" [PScal t] = raise OverflowError
  /\ run_op fmt "RZ" [PScal t] = raise OverflowError
  /\ run_op fmt "RN" [PScal t] = raise ValueError.
Proof.
  intros fmt t H. pose proof (NumCmp.to_number_not_nan t) as Hn.
  destruct (to_number t) as [z|[s|s| |s m e]] eqn:E; try discriminate;
    repeat split; RunOp.run_plain;
    unfold op_FLOOR, op_CEIL, op_ROUNDZERO, op_ROUNDNEAREST, op_round;
    rewrite E; destruct s; reflexivity.
Qed.
Print Assumptions C81_infinite.

(** Rounding an integer to a multiple of another: right below 2^53. *)
Theorem C81_multiple_partial : forall fmt a p,
  - 2 ^ 53 < a < 2 ^ 53 -> - 2 ^ 53 < p < 2 ^ 53 -> p <> 0 ->
  (exists k, run_op fmt "|<" [scal_Z a; scal_Z p] = ret (scal_Z (k * p))
     /\ k * p <= a < k * p + Z.abs p)
  /\ (exists k, run_op fmt ">|" [scal_Z a; scal_Z p] = ret (scal_Z (k * p))
     /\ k * p - Z.abs p < a <= k * p)
  /\ (exists k, run_op fmt "RZ" [scal_Z a; scal_Z p] = ret (scal_Z (k * p))
     /\ (0 <= a -> k * p <= a < k * p + Z.abs p)
     /\ (a <= 0 -> k * p - Z.abs p < a <= k * p)).
Proof. exact ArithProof.round_multiple. Qed.
Print Assumptions C81_multiple_partial.

(** Rounding to a multiple of zero changes nothing. *)
Theorem C81_zero : forall fmt text t n ds, In text ["|<"; ">|"; "RZ"; "RN"] ->
  decimal ds -> numeral_value n ds = 0 ->
  run_op fmt text [PScal t; PScal (numeral n ds)] = ret (PScal t).
Proof.
  intros fmt text t n ds Ht Dd Z0.
  assert (E : num_abs (to_number (numeral n ds)) = NI 0)
    by (rewrite NumProof.to_number_numeral by assumption; rewrite Z0; reflexivity).
  cbn [In] in Ht. destruct Ht as [<-|[<-|[<-|[<-|[]]]]]; RunOp.run_plain;
    unfold op_FLOOR, op_CEIL, op_ROUNDZERO, op_ROUNDNEAREST, op_round;
    rewrite E; reflexivity.
Qed.
Print Assumptions C81_zero.

(** Above 2^53 the quotient is a rounded float: "rounding down" gives a larger
    number, although both operands are integers. *)
Theorem C81_multiple_refuted :
  exists a p k, 0 < p /\ run_op FmtNone "|<" [scal_Z a; scal_Z p] = ret (scal_Z (k * p))
    /\ a < k * p.
Proof.
  exists 100000000000000001, 7, 14285714285714286.
  split; [reflexivity|]. split; [vm_compute; reflexivity|reflexivity].
Qed.
Print Assumptions C81_multiple_refuted.

(** A long integer is already rounded, but [RN] raises. *)
Theorem C81_nearest_refuted :
  exists z, run_op FmtNone "RN" [scal_Z z] = raise OverflowError
    /\ run_op FmtNone "|<" [scal_Z z] = ret (scal_Z z).
Proof. exists (2 ^ 1024). split; vm_compute; reflexivity. Qed.
Print Assumptions C81_nearest_refuted.

Example C81_ex :
  exact (to_number (s_ "-2.5")) = Some (inject_Z (-5629499534213120) * Qpower (inject_Z 2) (-51))%Q
  /\ (inject_Z (-5629499534213120) * Qpower (inject_Z 2) (-51) == (-5) # 2)%Q
  /\ run_op FmtNone "|<" [PScal (s_ "-2.5")] = ret (PScal (s_ "-3"))
  /\ run_op FmtNone ">|" [PScal (s_ "-2.5")] = ret (PScal (s_ "-2"))
  /\ run_op FmtNone "RZ" [PScal (s_ "-2.5")] = ret (PScal (s_ "-2"))
  /\ run_op FmtNone "RN" [PScal (s_ "-2.5")] = ret (PScal (s_ "-2"))
  /\ run_op FmtNone "RN" [PScal (s_ "3.5")] = ret (PScal (s_ "4"))
  /\ run_op FmtNone "|<" [scal_Z (-17); scal_Z 5] = ret (PScal (s_ "-20"))
  /\ run_op FmtNone ">|" [scal_Z 17; scal_Z (-5)] = ret (PScal (s_ "20")).
Proof. repeat split; vm_compute; reflexivity. Qed.
