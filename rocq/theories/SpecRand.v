(** * Specification vocabulary about random numbers *)

From Coq Require Import String List NArith ZArith Bool.
From Coq Require Import Floats.SpecFloat.
From Verif Require Import PyStr PyNum PTypes Heap SpecHeap SpecVars.
Import ListNotations.
Local Open Scope string_scope.
Local Open Scope list_scope.
Local Open Scope Z_scope.

(** Nothing changes except that random numbers were drawn and there may be
    more objects and more warnings. *)
Definition only_draws (s s' : state) : Prop := only_adds (set_rand (st_rand s') s) s'.

(** The float [f] is exactly [k] times 2^-53. *)
Definition is_fraction53 (f : float) (k : Z) : Prop :=
  match f with
  | S754_zero false => k = 0
  | S754_finite false m e => e <= -53 /\ Zpos m = k * 2 ^ (-53 - e)
  | _ => False
  end.

(** The generator after seeding with the text [t]: nothing is left of the
    numbers drawn before. *)
Definition seeded (g : rng) (t : str) : rng := mkrng (rng_seed g t) (rng_seed g).

(** The states are the same but for the numbers drawn before. *)
Definition same_but_draws (s1 s2 : state) : Prop :=
  exists pick, s2 = set_rand (mkrng pick (rng_seed (st_rand s1))) s1.

(** The value SH makes of the items in their new order. *)
Definition reordered (p : pval) (qs : list pval) (r : pval) : Prop :=
  match p with
  | PScal _ => exists t, qs = map (fun c => PScal [c]) t /\ r = PScal t
  | _ => r = PList qs
  end.
