(** * Vocabulary for powers and rounding *)

From Coq Require Import ZArith QArith Qpower.
From Coq Require Import Floats.SpecFloat.
From Verif Require Import PyNum.
Local Open Scope Z_scope.

(** The product of [n] copies of [x]. *)
Fixpoint copies_of (x : Z) (n : nat) : Z :=
  match n with O => 1 | S n => x * copies_of x n end.

(** The rational number a Python number stands for; none if it is infinite or
    not a number. *)
Definition exact (x : num) : option Q :=
  match x with
  | NI z => Some (inject_Z z)
  | NF (S754_zero _) => Some (inject_Z 0)
  | NF (S754_finite s m e) =>
      Some (inject_Z (if s then Zneg m else Zpos m) * Qpower (inject_Z 2) e)%Q
  | NF _ => None
  end.

(** [z] is [q] rounded down, up, towards zero, or to the nearest integer with
    halves going to the even one. *)
Definition rounded_down (q : Q) (z : Z) : Prop :=
  (inject_Z z <= q /\ q < inject_Z (z + 1))%Q.
Definition rounded_up (q : Q) (z : Z) : Prop :=
  (inject_Z (z - 1) < q /\ q <= inject_Z z)%Q.
Definition rounded_in (q : Q) (z : Z) : Prop :=
  ((0 <= q)%Q -> rounded_down q z) /\ ((q <= 0)%Q -> rounded_up q z).
Definition rounded_nearest (q : Q) (z : Z) : Prop :=
  (inject_Z (2 * z - 1) <= 2 * q <= inject_Z (2 * z + 1))%Q
  /\ ((2 * q == inject_Z (2 * z - 1) \/ 2 * q == inject_Z (2 * z + 1))%Q
      -> Z.even z = true).
