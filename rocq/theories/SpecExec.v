(** * Specifications for running programs *)

From Coq Require Import String List NArith ZArith Bool.
From Verif Require Import PyStr PyNum Tokens OpTable PTypes Heap SpecHeap.
Import ListNotations.
Local Open Scope list_scope.

(** Two states that differ at most in the warnings flag and the warnings
    printed so far. *)
Definition agree (s1 s2 : state) : Prop :=
  st_heap s1 = st_heap s2 /\ st_vars s1 = st_vars s2 /\
  st_scopes s1 = st_scopes s2 /\ st_depth s1 = st_depth s2 /\
  st_args s1 = st_args s2 /\ st_main s1 = st_main s2 /\
  st_in s1 = st_in s2 /\ st_out s1 = st_out s2 /\
  st_fmt s1 = st_fmt s2 /\ st_tao s1 = st_tao s2.

(** The same end: both normal, both with the same error, or both without an
    end so far, in states that agree. *)
Inductive same_end {A} : outcome A -> outcome A -> Prop :=
| end_ok a s1 s2 : agree s1 s2 -> same_end (Ok a s1) (Ok a s2)
| end_err e s1 s2 : agree s1 s2 -> same_end (Err e s1) (Err e s2)
| end_fuel : same_end Fuel Fuel.

(** The state at the end. *)
Inductive ends_in {A} : outcome A -> state -> Prop :=
| ends_ok a s : ends_in (Ok a s) s
| ends_err e s : ends_in (Err e s) s.
