(** * Taking an item out of a sequence *)

From Coq Require Import String List NArith ZArith Bool.
From Verif Require Import PyStr PyNum PTypes Spec Heap Exec SpecHeap SpecVars SpecAlias.
Import ListNotations.
Local Open Scope string_scope.
Local Open Scope list_scope.
Local Open Scope Z_scope.

Definition start (lo : option Z) : Z := match lo with Some z => z | None => 0 end.

(** [picked p i a q]: the item at index [i] of [p], counted around, is [a], and
    [q] is [p] without it.  A Range without its first integer is a Range. *)
Inductive picked : pval -> Z -> pval -> pval -> Prop :=
| picked_list i before a after :
    i mod Z.of_nat (length (before ++ a :: after)) = Z.of_nat (length before) ->
    picked (PList (before ++ a :: after)) i a (PList (before ++ after))
| picked_text i before c after :
    i mod Z.of_nat (length (before ++ c :: after)) = Z.of_nat (length before) ->
    picked (PScal (before ++ c :: after)) i (PScal [c]) (PScal (before ++ after))
| picked_first i lo u :
    start lo < u -> i mod (u - start lo) = 0 ->
    picked (PRange lo (Some u)) i (scal_Z (start lo)) (PRange (Some (start lo + 1)) (Some u))
| picked_inside i lo u before a after :
    elems (PRange lo (Some u)) (before ++ a :: after) -> before <> [] ->
    i mod (u - start lo) = Z.of_nat (length before) ->
    picked (PRange lo (Some u)) i a (PList (before ++ after))
| picked_endless lo :
    picked (PRange lo None) 0 (scal_Z (start lo)) (PRange (Some (start lo + 1)) None).

(** Repeated use of PK on one variable, with any indices. *)
Inductive pick_use (x : str) : state -> list pval -> state -> Prop :=
| pick_done s : pick_use x s [] s
| pick_more s e pi i w p s1 outs s2 :
    means s e pi -> index_value pi i ->
    gives s (app "PK" [name x; e]) w s1 -> den (st_heap s1) w p ->
    pick_use x s1 outs s2 ->
    pick_use x s (p :: outs) s2.
