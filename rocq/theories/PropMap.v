(** * Properties C77-C79: mapping, filtering and sorting with a function *)

From Coq Require Import String List NArith ZArith Bool Arith Lia.
From Verif Require Import PyStr PyNum Tokens OpFun OpTable PTypes Ops Apply Spec Heap Exec
                          SpecHeap SpecExec SpecRun SpecList SpecScan SpecVars SpecMap PropExec.
From Verif Require NumProof MapProof FilterProof.
Import ListNotations.
Local Open Scope string_scope.
Local Open Scope list_scope.
Local Open Scope Z_scope.

Definition printed (l : list string) : option str := Some (flat_map (fun t => s_ t ++ [10%N]) l).

(** ** C77: mapping *)

(** M: one call for each item, from the first to the last, whatever the calls
    do; the results are the items of a new List.  The operands can stand in
    either order. *)
Theorem C77_map : forall s e1 e2 f it s1 p l,
  applied s e1 e2 f it s1 -> den (st_heap s1) it p -> elems p l ->
  exists vs s2, visits s1 it l vs s2 /\
    forall u s', gives s (app "M" [e1; e2]) u s' <->
      exists rs s3, calls_each f (map (fun v => [v]) vs) s2 rs s3 /\ makes_list rs s3 u s'.
Proof. exact MapProof.map_calls. Qed.
Print Assumptions C77_map.

(** MZ: the two iterables side by side, as far as both go. *)
Theorem C77_zip : forall s e1 e2 e3 f it1 it2 s1 p q l m,
  is_function f ->
  operands s [e1; e2; e3] [f; it1; it2] s1 \/ operands s [e1; e2; e3] [it1; f; it2] s1 ->
  den (st_heap s1) it1 p -> den (st_heap s1) it2 q -> elems p l -> elems q m ->
  exists argss s2, only_adds s1 s2
    /\ Forall2 (dens (st_heap s2)) argss (map couple (combine l m))
    /\ forall u s', gives s (app "MZ" [e1; e2; e3]) u s' <->
         exists rs s3, calls_each f argss s2 rs s3 /\ makes_list rs s3 u s'.
Proof. exact MapProof.zip_calls. Qed.
Print Assumptions C77_zip.

(** ME: each item with its position. *)
Theorem C77_enumerate : forall s e1 e2 f it s1 p l,
  applied s e1 e2 f it s1 -> den (st_heap s1) it p -> elems p l ->
  exists argss s2, only_adds s1 s2
    /\ Forall2 (dens (st_heap s2)) argss
         (map (fun x => [whole (Z.of_nat (fst x)); snd x]) (numbered 0 l))
    /\ forall u s', gives s (app "ME" [e1; e2]) u s' <->
         exists rs s3, calls_each f argss s2 rs s3 /\ makes_list rs s3 u s'.
Proof. exact MapProof.enumerate_calls. Qed.
Print Assumptions C77_enumerate.

(** MP: each item with the next one. *)
Theorem C77_pairs : forall s e1 e2 f it s1 p l,
  applied s e1 e2 f it s1 -> den (st_heap s1) it p -> elems p l ->
  exists argss s2, only_adds s1 s2
    /\ Forall2 (dens (st_heap s2)) argss (map couple (adjacent l))
    /\ forall u s', gives s (app "MP" [e1; e2]) u s' <->
         exists rs s3, calls_each f argss s2 rs s3 /\ makes_list rs s3 u s'.
Proof. exact MapProof.pairs_calls. Qed.
Print Assumptions C77_pairs.

(** MJ and MF: the results of the calls, joined or flattened. *)
Theorem C77_join : forall s e1 e2 f it s1 p l,
  applied s e1 e2 f it s1 -> den (st_heap s1) it p -> elems p l ->
  exists vs s2, visits s1 it l vs s2 /\
    forall rs s3 qs r, calls_each f (map (fun v => [v]) vs) s2 rs s3 -> dens (st_heap s3) rs qs ->
      snd (run_op (st_fmt s3) "J" [PList qs]) = Val r ->
      results s s3 (app "MJ" [e1; e2]) r.
Proof. exact MapProof.mapjoin_does. Qed.
Print Assumptions C77_join.

Theorem C77_flatten : forall s e1 e2 f it s1 p l,
  applied s e1 e2 f it s1 -> den (st_heap s1) it p -> elems p l ->
  exists vs s2, visits s1 it l vs s2 /\
    forall rs s3 qs r, calls_each f (map (fun v => [v]) vs) s2 rs s3 -> dens (st_heap s3) rs qs ->
      snd (run_op (st_fmt s3) "FL" [PList qs]) = Val r ->
      results s s3 (app "MF" [e1; e2]) r.
Proof. exact MapProof.mapflatten_does. Qed.
Print Assumptions C77_flatten.

(** MS: the results added up one after the other, starting with 0.  The
    calls are assumed not to change existing objects. *)
Theorem C77_sum : forall s e1 e2 f it s1 p l,
  applied s e1 e2 f it s1 -> den (st_heap s1) it p -> elems p l ->
  exists vs s2, visits s1 it l vs s2 /\
    forall rs s3 qs r, calls_each f (map (fun v => [v]) vs) s2 rs s3 -> dens (st_heap s3) rs qs ->
      (exists t, st_heap s3 = st_heap s2 ++ t) -> adds_up (st_fmt s3) (whole 0) qs r ->
      results s s3 (app "MS" [e1; e2]) r.
Proof. exact MapProof.mapsum_does. Qed.
Print Assumptions C77_sum.

(** *** Functions without effects *)

(** A Block that is an expression over its parameters computes the value of
    the expression. *)
Theorem C77_expression : forall s0 e (F : list pval -> pval -> Prop),
  (forall s ps p s1, only_adds s0 s -> F ps p -> entered s (HBlock [] e) ps s1 -> means s1 e p) ->
  computes s0 (HBlock [] e) F.
Proof. exact FilterProof.expression_computes. Qed.
Print Assumptions C77_expression.

(** With such a function the values of the items determine the result. *)
Theorem C77_map_value : forall s e1 e2 f it s1 p l F r,
  applied s e1 e2 f it s1 -> den (st_heap s1) it p -> elems p l ->
  computes s1 f F -> Forall2 (fun x y => F [x] y) l r ->
  results s s1 (app "M" [e1; e2]) (PList r).
Proof. exact MapProof.map_value. Qed.
Print Assumptions C77_map_value.

Theorem C77_zip_value : forall s e1 e2 e3 f it1 it2 s1 p q l m F r,
  is_function f ->
  operands s [e1; e2; e3] [f; it1; it2] s1 \/ operands s [e1; e2; e3] [it1; f; it2] s1 ->
  den (st_heap s1) it1 p -> den (st_heap s1) it2 q -> elems p l -> elems q m ->
  computes s1 f F -> Forall2 (fun x y => F [fst x; snd x] y) (combine l m) r ->
  results s s1 (app "MZ" [e1; e2; e3]) (PList r).
Proof. exact MapProof.zip_value. Qed.
Print Assumptions C77_zip_value.

Theorem C77_enumerate_value : forall s e1 e2 f it s1 p l F r,
  applied s e1 e2 f it s1 -> den (st_heap s1) it p -> elems p l ->
  computes s1 f F -> Forall2 (fun x y => F [whole (Z.of_nat (fst x)); snd x] y) (numbered 0 l) r ->
  results s s1 (app "ME" [e1; e2]) (PList r).
Proof. exact MapProof.enumerate_value. Qed.
Print Assumptions C77_enumerate_value.

Theorem C77_pairs_value : forall s e1 e2 f it s1 p l F r,
  applied s e1 e2 f it s1 -> den (st_heap s1) it p -> elems p l ->
  computes s1 f F -> Forall2 (fun x y => F [fst x; snd x] y) (adjacent l) r ->
  results s s1 (app "MP" [e1; e2]) (PList r).
Proof. exact MapProof.pairs_value. Qed.
Print Assumptions C77_pairs_value.

(** MU: the items of each item are the arguments. *)
Theorem C77_unpack_value : forall s e1 e2 f it s1 p l F r,
  applied s e1 e2 f it s1 -> den (st_heap s1) it p -> elems p l ->
  computes s1 f F -> Forall2 (fun x y => exists xs, elems x xs /\ F xs y) l r ->
  results s s1 (app "MU" [e1; e2]) (PList r).
Proof. exact MapProof.unpack_value. Qed.
Print Assumptions C77_unpack_value.

(** MM: one level deeper. *)
Theorem C77_map_map_value : forall s e1 e2 f it s1 p l F r,
  applied s e1 e2 f it s1 -> den (st_heap s1) it p -> elems p l ->
  computes s1 f F ->
  Forall2 (fun x y => exists xs ys, elems x xs /\ y = PList ys /\ Forall2 (fun a b => F [a] b) xs ys) l r ->
  results s s1 (app "MM" [e1; e2]) (PList r).
Proof. exact MapProof.mapmap_value. Qed.
Print Assumptions C77_map_map_value.

(** MC: the function of the row and column numbers. *)
Theorem C77_coordinates : forall s e1 e2 f it s1 p rows cols F g,
  is_function f -> operands s [e1; e2] [f; it] s1 -> den (st_heap s1) it p -> dimensions p rows cols ->
  computes s1 f F ->
  (forall r c, 0 <= r < rows -> 0 <= c < cols -> F [whole r; whole c] (g r c)) ->
  results s s1 (app "MC" [e1; e2])
    (PList (map (fun r => PList (map (g r) (ints_from 0 (Z.to_nat cols))))
                (ints_from 0 (Z.to_nat rows)))).
Proof. exact MapProof.coords_value. Qed.
Print Assumptions C77_coordinates.

(** [{a*a}] squares integers, in every state, so that [{a*a}Mx] lists the
    squares of the items of any List [x] of integers. *)
Definition square : tree hval := app "*" [name (s_ "a"); name (s_ "a")].
Definition squares (ps : list pval) (p : pval) : Prop := exists z, ps = [whole z] /\ p = whole (z * z).
Example C77_square : forall s0, computes s0 (HBlock [] square) squares.
Proof.
  intros s0. apply C77_expression. intros s ps p s1 _ (z & -> & ->) (_ & _ & _ & Ha & _).
  assert (M : means s1 (name (s_ "a")) (whole z)).
  { apply means_name.
    - split; [apply name_lower; [reflexivity|discriminate]|]. repeat split; try discriminate.
    - destruct (Ha O 97%N eq_refl) as (v & B & D). exists (Some v). auto. }
  apply means_app with (ps := [whole z; whole z]).
  - eexists. split; [vm_compute; reflexivity|constructor; reflexivity].
  - constructor; [exact M|]. constructor; [exact M|constructor].
  - destruct (NumProof.str_of_Z_numeral z) as (ds & Hd & E & V & _). unfold whole. rewrite E.
    rewrite NumProof.times_numeral by assumption. rewrite V. reflexivity.
Qed.
Example C77_squares : forall s v zs,
  den (st_heap s) v (PList (map whole zs)) ->
  results s s (app "M" [TApp op_block [TBlk [square]]; TVal v]) (PList (map (fun z => whole (z * z)) zs)).
Proof.
  intros s v zs D.
  eapply C77_map_value with (f := HBlock [] square) (it := v) (F := squares).
  - split; [eexists _, _; reflexivity|]. left.
    econstructor; [exists 2%nat; reflexivity|]. econstructor; [exists 2%nat; reflexivity|constructor].
  - exact D.
  - apply elems_list.
  - apply C77_square.
  - clear. induction zs; constructor; [|exact IHzs]. eexists. split; reflexivity.
Qed.
Example C77_ex1 :
  output_of "i:3 x:[2 5 7] P{Ui x@0:i a.i}Mx P{a.b}ME""xyz"" P{a+b}MP[1 3 6] P{a*b}MZ[1 2 3][4 5] i.x" []
  = printed ["245576"; "0x1y2z"; "49"; "410"; "666567"].
Proof. vm_compute. reflexivity. Qed.
Example C77_ex2 :
  output_of "P{a.b}MU[[1 2][3]] P{a+1}MM[[1 2][3]] P{a.b}MC[2 3] P{[a a]}MF,3 P{a.a}MJ""ab"" {a*a}MS,4" []
  = printed ["12"; "234"; "000102101112"; "001122"; "aabb"; "14"].
Proof. vm_compute. reflexivity. Qed.

(** ** C78: filtering *)

(** FI and FN: the items for which the result of the call counts as true
    (false) at the end of the call, in the order of the items; the kept items
    are the visited objects themselves. *)
Theorem C78_filter : forall s e1 e2 f it s1 p l,
  applied s e1 e2 f it s1 -> den (st_heap s1) it p -> elems p l ->
  exists vs s2, visits s1 it l vs s2 /\
    forall u s', gives s (app "FI" [e1; e2]) u s' <->
      exists rs s3, keeps with_item the_item true f 0 vs s2 rs s3 /\ makes_list rs s3 u s'.
Proof. exact FilterProof.filter_calls. Qed.
Print Assumptions C78_filter.

Theorem C78_filter_not : forall s e1 e2 f it s1 p l,
  applied s e1 e2 f it s1 -> den (st_heap s1) it p -> elems p l ->
  exists vs s2, visits s1 it l vs s2 /\
    forall u s', gives s (app "FN" [e1; e2]) u s' <->
      exists rs s3, keeps with_item the_item false f 0 vs s2 rs s3 /\ makes_list rs s3 u s'.
Proof. exact FilterProof.filternot_calls. Qed.
Print Assumptions C78_filter_not.

(** FE: the function also gets the positions; FX keeps them instead of the
    items. *)
Theorem C78_enumerate : forall s e1 e2 f it s1 p l,
  applied s e1 e2 f it s1 -> den (st_heap s1) it p -> elems p l ->
  exists vs s2, visits s1 it l vs s2 /\
    forall u s', gives s (app "FE" [e1; e2]) u s' <->
      exists rs s3, keeps with_number the_item true f 0 vs s2 rs s3 /\ makes_list rs s3 u s'.
Proof. exact FilterProof.filterenum_calls. Qed.
Print Assumptions C78_enumerate.

Theorem C78_indices : forall s e1 e2 f it s1 p l,
  applied s e1 e2 f it s1 -> den (st_heap s1) it p -> elems p l ->
  exists vs s2, visits s1 it l vs s2 /\
    forall u s', gives s (app "FX" [e1; e2]) u s' <->
      exists rs s3, keeps with_number the_number true f 0 vs s2 rs s3 /\ makes_list rs s3 u s'.
Proof. exact FilterProof.filterindex_calls. Qed.
Print Assumptions C78_indices.

(** FJ: the kept items joined. *)
Theorem C78_join : forall s e1 e2 f it s1 p l,
  applied s e1 e2 f it s1 -> den (st_heap s1) it p -> elems p l ->
  exists vs s2, visits s1 it l vs s2 /\
    forall rs s3 qs r, keeps with_item the_item true f 0 vs s2 rs s3 -> dens (st_heap s3) rs qs ->
      snd (run_op (st_fmt s3) "J" [PList qs]) = Val r ->
      results s s3 (app "FJ" [e1; e2]) r.
Proof. exact FilterProof.filterjoin_does. Qed.
Print Assumptions C78_join.

(** With a function that computes something, the values of the items
    determine the result. *)
Theorem C78_filter_value : forall s e1 e2 f it s1 p l F r,
  applied s e1 e2 f it s1 -> den (st_heap s1) it p -> elems p l ->
  computes s1 f F -> selected (fun x y => F [x] y) true l r ->
  results s s1 (app "FI" [e1; e2]) (PList r).
Proof. exact FilterProof.filter_value. Qed.
Print Assumptions C78_filter_value.

Theorem C78_filter_not_value : forall s e1 e2 f it s1 p l F r,
  applied s e1 e2 f it s1 -> den (st_heap s1) it p -> elems p l ->
  computes s1 f F -> selected (fun x y => F [x] y) false l r ->
  results s s1 (app "FN" [e1; e2]) (PList r).
Proof. exact FilterProof.filternot_value. Qed.
Print Assumptions C78_filter_not_value.

Theorem C78_enumerate_value : forall s e1 e2 f it s1 p l F r,
  applied s e1 e2 f it s1 -> den (st_heap s1) it p -> elems p l ->
  computes s1 f F ->
  selected (fun x y => F [whole (Z.of_nat (fst x)); snd x] y) true (numbered 0 l) r ->
  results s s1 (app "FE" [e1; e2]) (PList (map snd r)).
Proof. exact FilterProof.filterenum_value. Qed.
Print Assumptions C78_enumerate_value.

Theorem C78_indices_value : forall s e1 e2 f it s1 p l F r,
  applied s e1 e2 f it s1 -> den (st_heap s1) it p -> elems p l ->
  computes s1 f F ->
  selected (fun x y => F [whole (Z.of_nat (fst x)); snd x] y) true (numbered 0 l) r ->
  results s s1 (app "FX" [e1; e2]) (PList (map (fun x => whole (Z.of_nat (fst x))) r)).
Proof. exact FilterProof.filterindex_value. Qed.
Print Assumptions C78_indices_value.

(** FU: the items of each item are the arguments. *)
Theorem C78_unpack_value : forall s e1 e2 f it s1 p l F r,
  applied s e1 e2 f it s1 -> den (st_heap s1) it p -> elems p l ->
  computes s1 f F -> selected (fun x y => exists xs, elems x xs /\ F xs y) true l r ->
  results s s1 (app "FU" [e1; e2]) (PList r).
Proof. exact FilterProof.filterunpack_value. Qed.
Print Assumptions C78_unpack_value.

(** [{a*a}FIx] drops exactly the zeros. *)
Lemma counts_whole : forall z, counts (whole z) (negb (z =? 0)).
Proof. intros z. apply FilterProof.counts_int. Qed.
Example C78_squares : forall s v zs,
  den (st_heap s) v (PList (map whole zs)) ->
  results s s (app "FI" [TVal v; TApp op_block [TBlk [square]]])
    (PList (map whole (filter (fun z => negb (z =? 0)) zs))).
Proof.
  intros s v zs D.
  eapply C78_filter_value with (f := HBlock [] square) (it := v) (F := squares).
  - split; [eexists _, _; reflexivity|]. right.
    econstructor; [exists 2%nat; reflexivity|]. econstructor; [exists 2%nat; reflexivity|constructor].
  - exact D.
  - apply elems_list.
  - apply C77_square.
  - clear. induction zs as [|z zs IH]; cbn [map filter]; [constructor|].
    pose proof (counts_whole (z * z)) as C. destruct (z =? 0) eqn:Ez; cbn [negb].
    + apply Z.eqb_eq in Ez. subst z. eapply selected_not; [exists 0; split; reflexivity|exact C|exact IH].
    + assert (Q : z * z =? 0 = false) by (apply Z.eqb_neq; apply Z.eqb_neq in Ez; lia).
      rewrite Q in C. cbn [map]. eapply selected_one; [exists z; split; reflexivity|exact C|exact IH].
Qed.
Example C78_ex :
  output_of "i:0 x:[3 0 5 0] P{Ui a}FIx P{a}FNx P{a<2}FEx P{b}FXx P{a<b}FU[[1 2][4 3]] P{a>2}FJx i" []
  = printed ["35"; "00"; "30"; "02"; "12"; "35"; "4"].
Proof. vm_compute. reflexivity. Qed.

(** ** C79: sorting by a key *)

(** SK: if the calls return the keys [ks], the result is the values the items
    have after the calls in ascending order of their keys, ties in their original
    order; it is nil if two keys cannot be ordered. *)
Theorem C79_ascending : forall s e1 e2 f it s1 p l,
  applied s e1 e2 f it s1 -> den (st_heap s1) it p -> elems p l ->
  exists vs s2, visits s1 it l vs s2 /\
    forall ks s3 ps, keyed_by f vs s2 ks s3 -> dens (st_heap s3) vs ps ->
      (exists x y, In x ks /\ In y ks /\ ~ number_same x y /\ ~ number_before x y /\ ~ number_before y x
         /\ results s s3 (app "SK" [e1; e2]) PNil)
      \/ exists r, stably_sorted (directed false (fun a b => number_before (fst a) (fst b))) (combine ks ps) r
         /\ results s s3 (app "SK" [e1; e2]) (PList (map snd r)).
Proof. intros s e1 e2 f it s1 p l.
  exact (FilterProof.sort_does "SK" false "SORTKEYED" _ s e1 e2 f it s1 p l eq_refl eq_refl (fun _ _ _ => eq_refl)). Qed.
Print Assumptions C79_ascending.

(** DK: if the calls return the keys [ks], the result is the values the items
    have after the calls in descending order of their keys, ties in their original
    order; it is nil if two keys cannot be ordered. *)
Theorem C79_descending : forall s e1 e2 f it s1 p l,
  applied s e1 e2 f it s1 -> den (st_heap s1) it p -> elems p l ->
  exists vs s2, visits s1 it l vs s2 /\
    forall ks s3 ps, keyed_by f vs s2 ks s3 -> dens (st_heap s3) vs ps ->
      (exists x y, In x ks /\ In y ks /\ ~ number_same x y /\ ~ number_before x y /\ ~ number_before y x
         /\ results s s3 (app "DK" [e1; e2]) PNil)
      \/ exists r, stably_sorted (directed true (fun a b => number_before (fst a) (fst b))) (combine ks ps) r
         /\ results s s3 (app "DK" [e1; e2]) (PList (map snd r)).
Proof. intros s e1 e2 f it s1 p l.
  exact (FilterProof.sort_does "DK" true "DESCENDINGKEYED" _ s e1 e2 f it s1 p l eq_refl eq_refl (fun _ _ _ => eq_refl)). Qed.
Print Assumptions C79_descending.

(** Scalars can always be ordered, as by [<]. *)
Theorem C79_scalars : forall fmt s e1 e2 f it s1 p l F ks,
  applied s e1 e2 f it s1 -> den (st_heap s1) it p -> elems p l ->
  computes s1 f F -> Forall2 (fun x k => F [x] k) l ks -> Forall scalar ks ->
  exists r, stably_sorted (directed false (fun a b => holds fmt "<" (fst a) (fst b))) (combine ks l) r
         /\ results s s1 (app "SK" [e1; e2]) (PList (map snd r)).
Proof. intros fmt s e1 e2 f it s1 p l F ks.
  exact (FilterProof.sort_value "SK" false "SORTKEYED" _ fmt s e1 e2 f it s1 p l F ks eq_refl eq_refl (fun _ _ _ => eq_refl)). Qed.
Print Assumptions C79_scalars.

(** Scalars can always be ordered, as by [<]. *)
Theorem C79_scalars_descending : forall fmt s e1 e2 f it s1 p l F ks,
  applied s e1 e2 f it s1 -> den (st_heap s1) it p -> elems p l ->
  computes s1 f F -> Forall2 (fun x k => F [x] k) l ks -> Forall scalar ks ->
  exists r, stably_sorted (directed true (fun a b => holds fmt "<" (fst a) (fst b))) (combine ks l) r
         /\ results s s1 (app "DK" [e1; e2]) (PList (map snd r)).
Proof. intros fmt s e1 e2 f it s1 p l F ks.
  exact (FilterProof.sort_value "DK" true "DESCENDINGKEYED" _ fmt s e1 e2 f it s1 p l F ks eq_refl eq_refl (fun _ _ _ => eq_refl)). Qed.
Print Assumptions C79_scalars_descending.

(** [xSK{a*a}]: by absolute value. *)
Example C79_squares : forall s v zs,
  den (st_heap s) v (PList (map whole zs)) ->
  exists r, stably_sorted (fun a b => holds FmtNone "<" (fst a) (fst b))
              (combine (map (fun z => whole (z * z)) zs) (map whole zs)) r
    /\ results s s (app "SK" [TVal v; TApp op_block [TBlk [square]]]) (PList (map snd r)).
Proof.
  intros s v zs D.
  eapply (C79_scalars FmtNone) with (f := HBlock [] square) (it := v) (F := squares).
  - split; [eexists _, _; reflexivity|]. right.
    econstructor; [exists 2%nat; reflexivity|]. econstructor; [exists 2%nat; reflexivity|constructor].
  - exact D.
  - apply elems_list.
  - apply C77_square.
  - clear. induction zs; constructor; [|exact IHzs]. eexists. split; reflexivity.
  - apply Forall_map, Forall_forall. intros; exact I.
Qed.
Example C79_ex :
  output_of "P{a%3}SK[7 3 5 4 6 2] P[7 3 5 4 6 2]DK{a%3} P{-a}SK,4 RP({a?a[a]}SK,2)" []
  = printed ["367452"; "527436"; "3210"; "()"].
Proof. vm_compute. reflexivity. Qed.
