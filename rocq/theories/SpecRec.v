(** * The function that is running *)

From Coq Require Import List.
From Verif Require Import Heap.
Import ListNotations.

(** The innermost call that has not ended is one of [f]. *)
Definition running (s : state) (f : hval) : Prop :=
  exists sc rest, st_scopes s = sc :: rest /\ sc_fun sc = Some f.
