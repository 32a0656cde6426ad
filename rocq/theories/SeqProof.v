(** * Indexing and slicing: proofs *)

From Coq Require Import String List NArith ZArith Bool Arith Lia.
From Verif Require Import PyStr PyRe PyNum Tokens OpFun OpTable PTypes Ops
                          OpsSeq Apply Spec ReFacts NumFacts.
Import ListNotations.
Local Open Scope Z_scope.

(** ** Lists *)

Lemma nth_error_ext : forall {A} (l r : list A),
  length l = length r ->
  (forall k, (k < length l)%nat -> nth_error l k = nth_error r k) -> l = r.
Proof.
  induction l as [|x l IH]; intros [|y r] Hl H; try discriminate; [reflexivity|].
  f_equal.
  - specialize (H O ltac:(simpl; lia)). simpl in H. congruence.
  - apply IH; [simpl in Hl; lia|].
    intros k Hk. apply (H (S k)). simpl. lia.
Qed.

Lemma window_unique : forall {A} (l : list A) a b r r',
  window l a b r -> window l a b r' -> r = r'.
Proof.
  intros A l a b r r' [L H] [L' H'].
  assert (length r = length r') by lia.
  apply nth_error_ext; [assumption|].
  intros k Hk. rewrite H, H' by lia. reflexivity.
Qed.

Definition copies {A} (v : list A) (j : nat) : list A := concat (repeat v j).

Lemma copies_length : forall {A} (v : list A) j,
  length (copies v j) = (j * length v)%nat.
Proof.
  intros A v j. induction j; [reflexivity|].
  unfold copies in *. simpl. rewrite app_length, IHj. lia.
Qed.

Lemma copies_snoc : forall {A} (v : list A) j, copies v j ++ v = copies v (S j).
Proof.
  intros A v j. unfold copies. induction j; simpl in *.
  - rewrite app_nil_r. reflexivity.
  - rewrite <- app_assoc, IHj. reflexivity.
Qed.

Lemma copies_nth : forall {A} (v : list A) j i,
  v <> [] -> (i < j * length v)%nat ->
  nth_error (copies v j) i = nth_error v (i mod length v).
Proof.
  intros A v j i Hv. revert i. induction j as [|j IH]; intros i Hi; [lia|].
  assert (length v <> O) by (destruct v; simpl; congruence).
  change (copies v (S j)) with (v ++ copies v j).
  destruct (Nat.lt_ge_cases i (length v)).
  - rewrite nth_error_app1, Nat.mod_small by assumption. reflexivity.
  - rewrite nth_error_app2 by assumption. rewrite IH by lia.
    f_equal. replace i with ((i - length v) + 1 * length v)%nat at 2 by lia.
    rewrite Nat.mod_add by assumption. reflexivity.
Qed.

Lemma nth_error_firstn : forall {A} n (l : list A) k,
  (k < n)%nat -> nth_error (firstn n l) k = nth_error l k.
Proof.
  induction n as [|n IH]; intros l k Hk; [lia|].
  destruct l as [|x l]; [destruct k; reflexivity|].
  destruct k; simpl; [reflexivity|]. apply IH. lia.
Qed.

Lemma nth_error_skipn : forall {A} n (l : list A) k,
  nth_error (skipn n l) k = nth_error l (n + k).
Proof.
  induction n as [|n IH]; intros l k; [reflexivity|].
  destruct l as [|x l]; [destruct k; reflexivity|]. simpl. apply IH.
Qed.

(** ** The slicing loops *)

Ltac triple :=
  match goal with
  | |- Some (copies ?v ?i, ?b, ?c) = Some (copies ?v ?j, ?e, ?f) =>
      assert (i = j) by lia; assert (b = e) by lia; assert (c = f) by lia;
      congruence
  end.

Section Slice.
  Context {A : Type}.
  Variable v : list A.
  Hypothesis Hv : v <> [].

  Lemma zlen_pos : 0 < zlen v.
  Proof. unfold zlen. destruct v; [contradiction|]. simpl length. lia. Qed.

  Lemma extend_left_spec : forall fuel j start stop,
    (Z.to_nat (- start) <= fuel)%nat ->
    exists j', extend_left fuel v (copies v j) start stop
      = Some (copies v (j + j'), start + Z.of_nat j' * zlen v,
              stop + Z.of_nat j' * zlen v)
      /\ 0 <= start + Z.of_nat j' * zlen v.
  Proof.
    pose proof zlen_pos as Hp.
    induction fuel as [|f IH]; intros j start stop Hf; simpl.
    - destruct (Z.ltb_spec start 0); [lia|].
      exists O. split; [|lia].
      triple.
    - destruct (Z.ltb_spec start 0).
      + change (v ++ copies v j) with (copies v (S j)).
        destruct (IH (S j) (start + zlen v) (stop + zlen v)) as (j' & E & Hn);
          [lia|].
        exists (S j'). rewrite E. split; [|lia].
        triple.
      + exists O. split; [|lia].
        triple.
  Qed.

  Lemma extend_right_spec : forall fuel j stop,
    (Z.to_nat (stop - zlen (copies v j)) <= fuel)%nat ->
    exists j', extend_right fuel v (copies v j) stop = Some (copies v j')
               /\ stop <= zlen (copies v j').
  Proof.
    pose proof zlen_pos as Hp.
    induction fuel as [|f IH]; intros j stop Hf; simpl.
    - destruct (Z.ltb_spec (zlen (copies v j)) stop); [lia|]. eauto.
    - destruct (Z.ltb_spec (zlen (copies v j)) stop); [|eauto].
      rewrite copies_snoc. apply IH.
      unfold zlen in *. rewrite copies_length in *. nia.
  Qed.

  Lemma seq_slice_window : forall a b,
    exists r, seq_slice v a b = Some r
      /\ window v (from_end v 0 a) (from_end v (zlen v) b) r.
  Proof.
    intros a b. pose proof zlen_pos as Hp.
    unfold seq_slice. destruct v as [|x v'] eqn:Ev; [contradiction|].
    rewrite <- Ev in *. clear x v' Ev. cbv zeta.
    set (a0 := match a with Some z => z | None => 0 end).
    set (b0 := match b with Some z => z | None => zlen v end).
    replace (if a0 <? 0 then a0 + zlen v else a0) with (from_end v 0 a)
      by (unfold a0, from_end, zlen; destruct a; reflexivity).
    replace (if b0 <? 0 then b0 + zlen v else b0) with (from_end v (zlen v) b)
      by (unfold b0, from_end; destruct b; [reflexivity|];
          destruct (Z.ltb_spec (zlen v) 0); [lia|reflexivity]).
    generalize (from_end v 0 a), (from_end v (zlen v) b). clear a b a0 b0.
    intros a b. destruct (Z.leb_spec b a).
    { exists []. split; [reflexivity|]. split; [simpl; lia|].
      intros k Hk; simpl in Hk; lia. }
    destruct (extend_left_spec (Z.to_nat (- a)) 1 a b (le_n _))
      as (j & E & Hn).
    replace (copies v 1) with v in E
      by (unfold copies; simpl; symmetry; apply app_nil_r).
    rewrite E. clear E.
    set (a' := a + Z.of_nat j * zlen v) in *.
    set (b' := b + Z.of_nat j * zlen v) in *.
    destruct (extend_right_spec (Z.to_nat b') (1 + j) b') as (j' & E & Hb').
    { unfold zlen. lia. }
    rewrite E. clear E. eexists. split; [reflexivity|].
    unfold py_slice, clamp_bound. cbv zeta.
    assert (Hab : a' < b') by lia.
    destruct (Z.ltb_spec a' 0); [lia|]. destruct (Z.ltb_spec b' 0); [lia|].
    rewrite (Z.min_l a') by lia. rewrite (Z.min_l b') by lia.
    rewrite !Z.max_r by lia.
    assert (L : length (firstn (Z.to_nat (b' - a')) (skipn (Z.to_nat a') (copies v j')))
                = Z.to_nat (b' - a')).
    { rewrite firstn_length, skipn_length. unfold zlen in Hb'. lia. }
    split; [rewrite L; lia|].
    rewrite L. intros k Hk.
    rewrite nth_error_firstn, nth_error_skipn by exact Hk.
    rewrite copies_nth; [|assumption|].
    2:{ rewrite <- copies_length. unfold zlen in Hb'. lia. }
    f_equal.
    replace (Z.of_nat (length v)) with (zlen v) by reflexivity.
    replace (a + Z.of_nat k) with (a' + Z.of_nat k + (- Z.of_nat j) * zlen v)
      by (unfold a'; lia).
    rewrite Z.mod_add by lia.
    unfold zlen in *. rewrite <- (Z2Nat.id a') at 2 by lia.
    rewrite <- Nat2Z.inj_add, <- Nat2Z.inj_mod, Nat2Z.id. reflexivity.
  Qed.
End Slice.

Lemma seq_slice_nil : forall {A} a b, @seq_slice A [] a b = Some [].
Proof. reflexivity. Qed.

(** A window inside the sequence is a Python slice. *)
Lemma window_inside : forall {A} (l : list A) a b,
  0 <= a -> b <= zlen l ->
  window l a b (firstn (Z.to_nat (b - a)) (skipn (Z.to_nat a) l)).
Proof.
  intros A l a b Ha Hb. unfold window. unfold zlen in *.
  destruct (Z.le_gt_cases b a).
  - replace (Z.to_nat (b - a)) with O by lia. simpl.
    split; [lia|]. intros; lia.
  - assert (L : length (firstn (Z.to_nat (b - a)) (skipn (Z.to_nat a) l))
                = Z.to_nat (b - a)).
    { rewrite firstn_length, skipn_length. lia. }
    rewrite L. split; [lia|]. intros k Hk.
    rewrite nth_error_firstn, nth_error_skipn by lia.
    rewrite Z.mod_small by lia. f_equal. lia.
Qed.

Lemma window_map : forall {A B} (f : A -> B) l a b r,
  window l a b r -> window (map f l) a b (map f r).
Proof.
  intros A B f l a b r [L H]. unfold window. rewrite !map_length.
  split; [exact L|]. intros k Hk.
  rewrite !nth_error_map, H by exact Hk. reflexivity.
Qed.

(** ** Ranges *)

Lemma ints_from_zseq : forall n lo,
  ints_from lo n = map (fun k => lo + Z.of_nat k) (seq 0 n).
Proof.
  induction n as [|n IH]; intro lo; simpl; [reflexivity|].
  f_equal; [lia|]. rewrite IH, <- seq_shift, map_map.
  apply map_ext. intro k. lia.
Qed.

Lemma zseq_ints_from : forall lo u,
  zseq lo u = ints_from lo (Z.to_nat (u - lo)).
Proof. intros. rewrite ints_from_zseq. reflexivity. Qed.

Lemma zseq_length : forall lo u, length (zseq lo u) = Z.to_nat (u - lo).
Proof. intros. unfold zseq. rewrite map_length, seq_length. reflexivity. Qed.

Lemma zseq_nth : forall lo u k,
  (k < Z.to_nat (u - lo))%nat -> nth_error (zseq lo u) k = Some (lo + Z.of_nat k).
Proof.
  intros lo u k Hk. unfold zseq. rewrite nth_error_map.
  replace (nth_error (seq 0 (Z.to_nat (u - lo))) k) with (Some k); [reflexivity|].
  symmetry. rewrite (nth_error_nth' _ O); [|rewrite seq_length; exact Hk].
  rewrite seq_nth by exact Hk. reflexivity.
Qed.

Lemma zseq_nil : forall lo u, u <= lo -> zseq lo u = [].
Proof.
  intros. unfold zseq. replace (Z.to_nat (u - lo)) with O by lia. reflexivity.
Qed.

Lemma zseq_In : forall lo u z, In z (zseq lo u) <-> lo <= z < u.
Proof.
  intros lo u z. unfold zseq. rewrite in_map_iff. split.
  - intros (k & <- & Hk). apply in_seq in Hk. lia.
  - intro H. exists (Z.to_nat (z - lo)). split; [lia|].
    apply in_seq. lia.
Qed.

Lemma zseq_sub : forall lo u a b,
  0 <= a -> a <= b -> b <= Z.max 0 (u - lo) ->
  zseq (lo + a) (lo + b) = firstn (Z.to_nat (b - a)) (skipn (Z.to_nat a) (zseq lo u)).
Proof.
  intros lo u a b Ha Hab Hb. apply nth_error_ext.
  - rewrite firstn_length, skipn_length, !zseq_length. lia.
  - rewrite zseq_length. intros k Hk.
    rewrite nth_error_firstn, nth_error_skipn by lia.
    rewrite !zseq_nth by lia. f_equal. lia.
Qed.

Lemma elems_range_ints : forall lo u,
  elems (PRange lo (Some u)) (map scal_Z (range_ints lo u)).
Proof.
  intros lo u. unfold range_ints. rewrite zseq_ints_from.
  exact (elems_range lo u).
Qed.

Lemma elems_det : forall v l l', elems v l -> elems v l' -> l = l'.
Proof. intros v l l' H H'. destruct H; inversion H'; subst; reflexivity. Qed.

Lemma elems_p_iter : forall v l, elems v l -> p_iter v = Val l.
Proof.
  intros v l H. destruct H; try reflexivity.
  simpl. unfold range_ints. rewrite zseq_ints_from. reflexivity.
Qed.

Lemma elems_len : forall v l, elems v l -> p_len v = Val (zlen l).
Proof.
  intros v l H. destruct H; simpl; unfold zlen; rewrite ?map_length; try reflexivity.
  f_equal. unfold lower0. fold z.
  rewrite ints_from_zseq, map_length, seq_length. lia.
Qed.

Lemma elems_iterable : forall v l, elems v l -> is_iterable v = true.
Proof. intros v l H. destruct H; reflexivity. Qed.

(** ** Indexing *)

Lemma p_getitem_int : forall v l i x,
  elems v l -> l <> [] ->
  nth_error l (Z.to_nat (i mod zlen l)) = Some x ->
  p_getitem v (IInt i) = Val x.
Proof.
  intros v l i x H Hne Hx. destruct H.
  - simpl. destruct s as [|c s]; [contradiction Hne; reflexivity|].
    unfold zlen in Hx. rewrite map_length in Hx.
    unfold seq_index, znth. set (k := i mod zlen (c :: s)) in *.
    assert (0 <= k) by (apply Z.mod_pos_bound; unfold zlen; simpl length; lia).
    destruct (Z.ltb_spec k 0); [lia|].
    rewrite nth_error_map in Hx. unfold zlen in k. fold k in Hx.
    destruct (nth_error (c :: s) (Z.to_nat k)); [|discriminate].
    simpl in *. inversion Hx; subst. reflexivity.
  - simpl. destruct l as [|y l]; [contradiction Hne; reflexivity|].
    unfold seq_index, znth. set (k := i mod zlen (y :: l)) in *.
    assert (0 <= k) by (apply Z.mod_pos_bound; unfold zlen; simpl length; lia).
    destruct (Z.ltb_spec k 0); [lia|]. rewrite Hx. reflexivity.
  - simpl. unfold range_is_empty, lower0. fold z.
    rewrite ints_from_zseq in *. unfold zlen in Hx.
    rewrite !map_length, seq_length in Hx.
    destruct (Z.leb_spec u z).
    { replace (Z.to_nat (u - z)) with O in Hne by lia.
      contradiction Hne; reflexivity. }
    replace (Z.max 0 (u - z)) with (u - z) by lia.
    replace (Z.of_nat (Z.to_nat (u - z))) with (u - z) in Hx by lia.
    pose proof (Z.mod_pos_bound i (u - z) ltac:(lia)).
    rewrite nth_error_map in Hx. change (map (fun k : nat => z + Z.of_nat k) (seq 0 (Z.to_nat (u - z)))) with (zseq z u) in Hx.
    rewrite zseq_nth in Hx by lia.
    simpl in Hx. inversion Hx; subst. unfold scal_Z. repeat f_equal. lia.
Qed.

Lemma zlen_zero : forall {A} (l : list A), zlen l = 0 <-> l = [].
Proof.
  intros A l. unfold zlen. destruct l; simpl length; split; intro H;
    try reflexivity; try discriminate; lia.
Qed.

Lemma at_idx_int : forall v l i x,
  elems v l -> nth_error l (Z.to_nat (i mod zlen l)) = Some x ->
  at_idx v (IInt i) = ret x.
Proof.
  intros v l i x H Hx. unfold at_idx.
  rewrite (elems_iterable v l H), (elems_len v l H).
  assert (l <> []) by (intros ->; destruct (Z.to_nat _); discriminate).
  destruct (Z.eqb_spec (zlen l) 0) as [E|_].
  { apply zlen_zero in E. contradiction. }
  rewrite (p_getitem_int v l i x H); auto.
Qed.

Lemma at_idx_empty : forall v i,
  elems v [] -> exists w, at_idx v i = ([w], Val PNil).
Proof.
  intros v i H. unfold at_idx.
  rewrite (elems_iterable v [] H), (elems_len v [] H).
  eexists. reflexivity.
Qed.

(** ** Slices of all sequence values *)

Lemma range_py_slice_elems : forall lo u a b,
  let len := Z.max 0 (u - lower0 lo) in
  - len <= a -> b <= len -> lower0 lo < u ->
  exists r, elems (range_py_slice lo u a b) r
    /\ window (map scal_Z (range_ints lo u))
         (if a <? 0 then a + len else a) (if b <? 0 then b + len else b) r.
Proof.
  intros lo u a b len Ha Hb Hne.
  exists (map scal_Z (zseq (lower0 lo + clamp_bound len a)
                           (lower0 lo + clamp_bound len b))).
  unfold range_py_slice. fold len. simpl mk_range.
  split.
  { apply (elems_range_ints (Some _)). }
  apply window_map. unfold range_ints.
  assert (L : zlen (zseq (lower0 lo) u) = len)
    by (unfold zlen; rewrite zseq_length; lia).
  set (a' := if a <? 0 then a + len else a).
  set (b' := if b <? 0 then b + len else b).
  assert (Ca : clamp_bound len a = Z.min a' len).
  { unfold clamp_bound, a'. destruct (Z.ltb_spec a 0); lia. }
  assert (Cb : clamp_bound len b = Z.max 0 b').
  { unfold clamp_bound, b'. destruct (Z.ltb_spec b 0); lia. }
  assert (A' : 0 <= a') by (unfold a'; destruct (Z.ltb_spec a 0); lia).
  assert (B' : b' <= len) by (unfold b'; destruct (Z.ltb_spec b 0); lia).
  assert (Hl : len = u - lower0 lo) by (subst len; lia).
  rewrite Ca, Cb.
  destruct (Z.le_gt_cases b' a').
  - rewrite (zseq_nil (_ + _)) by lia. split; [simpl; lia|]. simpl; intros; lia.
  - rewrite Z.min_l, Z.max_r by lia.
    rewrite (zseq_sub _ u) by lia. apply window_inside; lia.
Qed.

(** Slicing any non-empty finite sequence value gives a sequence value with
    the window as items. *)
Lemma p_getitem_slice : forall v l a b,
  elems v l -> l <> [] ->
  exists w r, p_getitem v (ISlice a b) = Val w /\ elems w r
    /\ window l (from_end l 0 a) (from_end l (zlen l) b) r.
Proof.
  intros v l a b H Hne. destruct H.
  - assert (s <> []) by (intros ->; contradiction Hne; reflexivity).
    destruct (seq_slice_window s H a b) as (r & E & W).
    exists (PScal r), (map (fun c => PScal [c]) r). simpl. rewrite E.
    split; [reflexivity|]. split; [constructor|].
    apply (window_map (fun c => PScal [c])) in W.
    unfold from_end, zlen in *. rewrite map_length. exact W.
  - destruct (seq_slice_window l Hne a b) as (r & E & W).
    exists (PList r), r. simpl. rewrite E.
    split; [reflexivity|]. split; [constructor|exact W].
  - rewrite <- zseq_ints_from in *.
    change z with (lower0 lo) in *. clear z.
    change (zseq (lower0 lo) u) with (range_ints lo u) in *.
    change (fun i => PScal (str_of_Z i)) with scal_Z in *.
    cbn [p_getitem]. unfold range_is_empty.
    destruct (Z.leb_spec u (lower0 lo)) as [|Hlt].
    { contradiction Hne. unfold range_ints. rewrite zseq_nil by assumption.
      reflexivity. }
    set (len := Z.max 0 (u - lower0 lo)).
    assert (L : zlen (map scal_Z (range_ints lo u)) = len).
    { unfold zlen, range_ints. rewrite map_length, zseq_length. lia. }
    cbv zeta.
    set (a0 := match a with Some z => z | None => 0 end).
    set (b0 := match b with Some z => z | None => len end).
    assert (FA : from_end (map scal_Z (range_ints lo u)) 0 a
                 = if a0 <? 0 then a0 + len else a0).
    { unfold from_end, a0. unfold zlen in L. rewrite L. destruct a; reflexivity. }
    assert (FB : from_end (map scal_Z (range_ints lo u)) len b
                 = if b0 <? 0 then b0 + len else b0).
    { unfold from_end, b0. unfold zlen in L. rewrite L. destruct b; [reflexivity|].
      destruct (Z.ltb_spec len 0); [lia|reflexivity]. }
    rewrite L, FA, FB.
    destruct ((- len <=? a0) && (b0 <=? len)) eqn:E.
    + apply andb_prop in E. destruct E as [E1 E2].
      apply Z.leb_le in E1. apply Z.leb_le in E2.
      destruct (range_py_slice_elems lo u a0 b0 E1 E2 Hlt) as (r & Hr & W).
      exists (range_py_slice lo u a0 b0), r. auto.
    + destruct (seq_slice_window _ Hne (Some a0) (Some b0)) as (r & Er & W).
      exists (PList r), r. rewrite Er. split; [reflexivity|].
      split; [constructor|].
      unfold from_end in W. unfold zlen in L. rewrite L in W. exact W.
Qed.

Lemma at_idx_slice : forall v l a b,
  elems v l -> l <> [] ->
  exists w r, at_idx v (ISlice a b) = ret w /\ elems w r
    /\ window l (from_end l 0 a) (from_end l (zlen l) b) r.
Proof.
  intros v l a b H Hne.
  destruct (p_getitem_slice v l a b H Hne) as (w & r & E & Hr & W).
  exists w, r. split; [|auto]. unfold at_idx.
  rewrite (elems_iterable v l H), (elems_len v l H), E.
  destruct (Z.eqb_spec (zlen l) 0) as [E0|_]; [|reflexivity].
  apply zlen_zero in E0. contradiction.
Qed.

(** ** Running the operators *)

Lemma run_at : forall fmt v i, is_block v = false -> is_block i = false ->
  run_op fmt "@" [v; i] = at_val v i.
Proof.
  intros fmt v i Hv Hi. unfold run_op, apply_op. cbn.
  rewrite Hv, Hi. destruct v, i; try discriminate; reflexivity.
Qed.
