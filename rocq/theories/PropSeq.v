(** * Properties C01-C05 and C28: sequences *)

From Coq Require Import String List NArith ZArith Bool Arith Sorted.
From Verif Require Import PyStr PyNum PTypes Ops Apply Spec.
From Verif Require SeqProof2 FindProof RangeProof.
Import ListNotations.
Local Open Scope string_scope.
Local Open Scope list_scope.
Local Open Scope Z_scope.

(** ** C01: indexing is cyclic *)

Theorem C01_index_cyclic : forall fmt v l i,
  elems v l -> l <> [] ->
  exists x, nth_error l (Z.to_nat (i mod Z.of_nat (length l))) = Some x
    /\ run_op fmt "@" [v; scal_Z i] = ret x.
Proof. exact SeqProof2.index_cyclic. Qed.
Print Assumptions C01_index_cyclic.

Theorem C01_index_empty : forall fmt v i,
  elems v [] -> exists w, run_op fmt "@" [v; scal_Z i] = ([w], Val PNil).
Proof. exact SeqProof2.index_empty. Qed.
Print Assumptions C01_index_empty.

Theorem C01_index_list : forall fmt v l is_,
  elems v l -> l <> [] ->
  exists xs, run_op fmt "@" [v; PList (map scal_Z is_)] = ret (PList xs)
    /\ Forall2 (fun i x => nth_error l (Z.to_nat (i mod Z.of_nat (length l)))
                           = Some x) is_ xs.
Proof. exact SeqProof2.index_list. Qed.
Print Assumptions C01_index_list.

Theorem C01_first : forall fmt v x l,
  elems v (x :: l) -> run_op fmt "@" [v] = ret x.
Proof. exact SeqProof2.index_first. Qed.
Print Assumptions C01_first.

Example C01_ex :
  elems (PScal (s_ "hello")) (map (fun c => PScal [c]) (s_ "hello"))
  /\ run_op FmtNone "@" [PScal (s_ "hello"); scal_Z (-12)] = ret (PScal (s_ "l"))
  /\ run_op FmtNone "@" [PRange (Some 3) (Some 7); scal_Z 9] = ret (scal_Z 4).
Proof. split; [constructor|]. split; vm_compute; reflexivity. Qed.

(** ** C02: slices are windows *)

Theorem C02_slice_scalar : forall fmt s a b, s <> [] ->
  exists r, run_op fmt "@" [PScal s; PRange a b] = ret (PScal r)
    /\ window s (from_end s 0 a) (from_end s (Z.of_nat (length s)) b) r.
Proof. exact SeqProof2.slice_at_scalar. Qed.
Print Assumptions C02_slice_scalar.

Theorem C02_slice_list : forall fmt l a b, l <> [] ->
  exists r, run_op fmt "@" [PList l; PRange a b] = ret (PList r)
    /\ window l (from_end l 0 a) (from_end l (Z.of_nat (length l)) b) r.
Proof. exact SeqProof2.slice_at_list. Qed.
Print Assumptions C02_slice_list.

Theorem C02_sliced_scalar : forall fmt text s n,
  In text ["@<"; "@>"; "H"; "S"] -> s <> [] ->
  exists r, run_op fmt text [PScal s; scal_Z n] = ret (PScal r)
    /\ window s (from_end s 0 (fst (slice_bounds text n)))
                (from_end s (Z.of_nat (length s)) (snd (slice_bounds text n))) r.
Proof. exact SeqProof2.sliced_scalar. Qed.
Print Assumptions C02_sliced_scalar.

Theorem C02_sliced_list : forall fmt text l n,
  In text ["@<"; "@>"; "H"; "S"] -> l <> [] ->
  exists r, run_op fmt text [PList l; scal_Z n] = ret (PList r)
    /\ window l (from_end l 0 (fst (slice_bounds text n)))
                (from_end l (Z.of_nat (length l)) (snd (slice_bounds text n))) r.
Proof. exact SeqProof2.sliced_list. Qed.
Print Assumptions C02_sliced_list.

Theorem C02_sliced_empty : forall fmt text n,
  In text ["@<"; "@>"; "H"; "S"] ->
  run_op fmt text [PScal []; scal_Z n] = ret (PScal [])
  /\ run_op fmt text [PList []; scal_Z n] = ret (PList []).
Proof. exact SeqProof2.sliced_empty. Qed.
Print Assumptions C02_sliced_empty.

Theorem C02_slice_empty : forall fmt v a b, elems v [] ->
  exists w, run_op fmt "@" [v; PRange a b] = ([w], Val PNil).
Proof. exact SeqProof2.slice_at_empty. Qed.
Print Assumptions C02_slice_empty.

Example C02_ex :
  run_op FmtNone "@" [PScal (s_ "abc"); PRange (Some (-5)) (Some 4)]
  = ret (PScal (s_ "bcabca"))
  /\ run_op FmtNone "S" [PScal (s_ "abcd"); scal_Z 3] = ret (PScal (s_ "bcd"))
  /\ run_op FmtNone "@" [PScal (s_ "abc"); PRange (Some 2) (Some 1)] = ret (PScal []).
Proof. repeat split; vm_compute; reflexivity. Qed.

(** ** C03: a finite Range behaves as the List of its integers *)

Theorem C03_length : forall fmt lo u l, elems (PRange lo (Some u)) l ->
  run_op fmt "#" [PRange lo (Some u)] = run_op fmt "#" [PList l]
  /\ run_op fmt "#" [PList l] = ret (scal_Z (Z.of_nat (length l))).
Proof. exact SeqProof2.range_len_list. Qed.
Print Assumptions C03_length.

Theorem C03_truth : forall fmt lo u l, elems (PRange lo (Some u)) l ->
  run_op fmt "!" [PRange lo (Some u)] = run_op fmt "!" [PList l].
Proof. exact SeqProof2.range_truth_list. Qed.
Print Assumptions C03_truth.

Theorem C03_index : forall fmt lo u l i, elems (PRange lo (Some u)) l ->
  run_op fmt "@" [PRange lo (Some u); scal_Z i]
  = run_op fmt "@" [PList l; scal_Z i].
Proof. exact SeqProof2.range_index_list. Qed.
Print Assumptions C03_index.

Theorem C03_slice : forall fmt lo u l a b, elems (PRange lo (Some u)) l ->
  (l = [] /\ run_op fmt "@" [PRange lo (Some u); PRange a b]
             = run_op fmt "@" [PList l; PRange a b])
  \/ exists w r, run_op fmt "@" [PRange lo (Some u); PRange a b] = ret w
       /\ run_op fmt "@" [PList l; PRange a b] = ret (PList r)
       /\ elems w r.
Proof. exact SeqProof2.range_slice_list. Qed.
Print Assumptions C03_slice.

Theorem C03_sliced : forall fmt text lo u l n,
  In text ["@<"; "@>"; "H"; "S"] ->
  elems (PRange lo (Some u)) l ->
  exists w r, run_op fmt text [PRange lo (Some u); scal_Z n] = ret w
    /\ run_op fmt text [PList l; scal_Z n] = ret (PList r)
    /\ elems w r.
Proof. exact SeqProof2.range_sliced_list. Qed.
Print Assumptions C03_sliced.

Theorem C03_iteration : forall fmt text lo u l, In text iterating_ops ->
  elems (PRange lo (Some u)) l ->
  run_op fmt text [PRange lo (Some u)] = run_op fmt text [PList l].
Proof. exact RangeProof.range_iter_list. Qed.
Print Assumptions C03_iteration.

Theorem C03_member : forall fmt lo u l n, elems (PRange lo (Some u)) l ->
  run_op fmt "N" [scal_Z n; PRange lo (Some u)]
  = run_op fmt "N" [scal_Z n; PList l].
Proof. exact FindProof.range_in_list. Qed.
Print Assumptions C03_member.

Theorem C03_find : forall fmt lo u l n, elems (PRange lo (Some u)) l ->
  run_op fmt "@?" [PRange lo (Some u); scal_Z n]
  = run_op fmt "@?" [PList l; scal_Z n].
Proof. exact FindProof.range_find_list. Qed.
Print Assumptions C03_find.

Theorem C03_find_all : forall fmt lo u l n, elems (PRange lo (Some u)) l ->
  run_op fmt "@*" [PRange lo (Some u); scal_Z n]
  = run_op fmt "@*" [PList l; scal_Z n].
Proof. exact FindProof.range_find_all_list. Qed.
Print Assumptions C03_find_all.

Example C03_ex :
  elems (PRange (Some (-1)) (Some 3)) (map scal_Z [-1; 0; 1; 2])
  /\ run_op FmtNone "@" [PRange (Some (-1)) (Some 3); PRange (Some 1) (Some 3)]
     = ret (PRange (Some 0) (Some 2))
  /\ run_op FmtNone "@" [PRange (Some (-1)) (Some 3); PRange (Some 2) (Some 5)]
     = ret (PList (map scal_Z [1; 2; -1]))
  /\ run_op FmtNone "@?" [PRange (Some (-1)) (Some 3); scal_Z 2] = ret (scal_Z 3).
Proof.
  split; [exact (elems_range (Some (-1)) 3)|].
  repeat split; vm_compute; reflexivity.
Qed.

(** ** C04: infinite Ranges *)

Theorem C04_index : forall fmt lo i, 0 <= i ->
  run_op fmt "@" [PRange lo None; scal_Z i] = ret (scal_Z (range_start lo + i)).
Proof. exact RangeProof.inf_index. Qed.
Print Assumptions C04_index.

Theorem C04_index_negative : forall fmt lo i, i < 0 ->
  run_op fmt "@" [PRange lo None; scal_Z i] = ret PNil.
Proof. exact RangeProof.inf_index_neg. Qed.
Print Assumptions C04_index_negative.

Theorem C04_slice_finite : forall fmt lo a b,
  0 <= range_start a -> 0 <= b ->
  exists w, run_op fmt "@" [PRange lo None; PRange a (Some b)] = ret w
    /\ elems w (map scal_Z (ints_from (range_start lo + range_start a)
                                      (Z.to_nat (b - range_start a)))).
Proof. exact RangeProof.inf_slice_finite. Qed.
Print Assumptions C04_slice_finite.

Theorem C04_slice_infinite : forall fmt lo a, 0 <= range_start a ->
  exists lo', run_op fmt "@" [PRange lo None; PRange a None]
              = ret (PRange lo' None)
    /\ range_start lo' = range_start lo + range_start a.
Proof. exact RangeProof.inf_slice_inf. Qed.
Print Assumptions C04_slice_infinite.

Theorem C04_slice_negative : forall fmt lo a b,
  range_start a < 0 \/ range_start b < 0 ->
  run_op fmt "@" [PRange lo None; PRange a b] = ret PNil.
Proof. exact RangeProof.inf_slice_neg. Qed.
Print Assumptions C04_slice_negative.

Theorem C04_member : forall fmt lo n,
  run_op fmt "N" [scal_Z n; PRange lo None]
  = ret (scal_Z (if range_start lo <=? n then 1 else 0)).
Proof. exact RangeProof.inf_in. Qed.
Print Assumptions C04_member.

Theorem C04_find : forall fmt lo n,
  run_op fmt "@?" [PRange lo None; scal_Z n]
  = ret (if range_start lo <=? n then scal_Z (n - range_start lo) else PNil).
Proof. exact RangeProof.inf_find. Qed.
Print Assumptions C04_find.

Theorem C04_true : forall fmt lo,
  run_op fmt "!" [PRange lo None] = ret (scal_Z 0).
Proof. exact RangeProof.inf_true. Qed.
Print Assumptions C04_true.

Theorem C04_no_length : forall fmt lo,
  exists w, run_op fmt "#" [PRange lo None] = ([w], Val PNil).
Proof. exact RangeProof.inf_len. Qed.
Print Assumptions C04_no_length.

Example C04_ex :
  run_op FmtNone "@" [PRange (Some 5) None; scal_Z 100] = ret (scal_Z 105)
  /\ run_op FmtNone "@" [PRange (Some 5) None; PRange (Some 2) (Some 4)]
     = ret (PRange (Some 7) (Some 9))
  /\ run_op FmtNone "N" [scal_Z 4; PRange (Some 5) None] = ret (scal_Z 0).
Proof. repeat split; vm_compute; reflexivity. Qed.

(** ** C05: shifting a Range.  The full statement also covers infinite Ranges,
    for which it is false of the code. *)

Theorem C05_add_partial : forall fmt lo u k l,
  elems (PRange lo (Some u)) (map scal_Z l) ->
  exists w, run_op fmt "+" [PRange lo (Some u); scal_Z k] = ret w
    /\ run_op fmt "+" [scal_Z k; PRange lo (Some u)] = ret w
    /\ elems w (map scal_Z (map (fun i => i + k) l)).
Proof. exact RangeProof.add_shift. Qed.
Print Assumptions C05_add_partial.

Theorem C05_sub_partial : forall fmt lo u k l,
  elems (PRange lo (Some u)) (map scal_Z l) ->
  exists w, run_op fmt "-" [PRange lo (Some u); scal_Z k] = ret w
    /\ elems w (map scal_Z (map (fun i => i - k) l)).
Proof. exact RangeProof.sub_shift. Qed.
Print Assumptions C05_sub_partial.

Theorem C05_add_infinite_refuted :
  ~ (forall fmt lo k, exists lo',
       run_op fmt "+" [PRange lo None; scal_Z k] = ret (PRange lo' None)
       /\ range_start lo' = range_start lo + k).
Proof. exact RangeProof.add_inf_wrong. Qed.
Print Assumptions C05_add_infinite_refuted.

Theorem C05_sub_infinite_refuted :
  ~ (forall fmt lo k, exists lo',
       run_op fmt "-" [PRange lo None; scal_Z k] = ret (PRange lo' None)
       /\ range_start lo' = range_start lo - k).
Proof. exact RangeProof.sub_inf_wrong. Qed.
Print Assumptions C05_sub_infinite_refuted.

Example C05_ex :
  elems (PRange None (Some 3)) (map scal_Z [0; 1; 2])
  /\ run_op FmtNone "+" [PRange None (Some 3); scal_Z 4]
     = ret (PRange (Some 4) (Some 7))
  /\ run_op FmtNone "+" [PRange (Some 2) None; scal_Z 3]
     = ret (PRange None (Some 5)).
Proof.
  split; [exact (elems_range None 3)|].
  split; vm_compute; reflexivity.
Qed.

(** ** C28: find and find-all *)

Theorem C28_find : forall fmt v item,
  searchable v item = true -> plain item = true ->
  (exists n, run_op fmt "@?" [v; item] = ret (scal_Z (Z.of_nat n))
             /\ least (item_at v item) n)
  \/ (run_op fmt "@?" [v; item] = ret PNil /\ forall i, ~ item_at v item i).
Proof. exact FindProof.find_spec. Qed.
Print Assumptions C28_find.

Theorem C28_find_all : forall fmt v item,
  searchable v item = true -> plain item = true ->
  exists ps, run_op fmt "@*" [v; item]
             = ret (PList (map (fun k => scal_Z (Z.of_nat k)) ps))
    /\ StronglySorted lt ps
    /\ forall i, In i ps <-> item_at v item i.
Proof. exact FindProof.find_all_spec. Qed.
Print Assumptions C28_find_all.

Example C28_ex :
  searchable (PScal (s_ "abaab")) (PScal (s_ "")) = true
  /\ run_op FmtNone "@*" [PScal (s_ "aaa"); PScal (s_ "aa")]
     = ret (PList (map scal_Z [0; 1]))
  /\ run_op FmtNone "@*" [PScal (s_ "ab"); PScal []]
     = ret (PList (map scal_Z [0; 1; 2]))
  /\ run_op FmtNone "@?" [PList [PNil; scal_Z 4]; scal_Z 4] = ret (scal_Z 1).
Proof. repeat split; vm_compute; reflexivity. Qed.
