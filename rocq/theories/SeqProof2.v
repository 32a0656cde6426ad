(** * Lemmas on indexing, slicing and Ranges, at the level of operators *)

From Coq Require Import String List NArith ZArith Bool Arith Lia.
From Verif Require Import PyStr PyRe PyNum Tokens OpFun OpTable Unparse PTypes
                          Ops OpsSeq Apply RunOp StrFacts ReFacts NumFacts NumCmp Spec
                          SeqProof.
Import ListNotations.
Local Open Scope string_scope.
Local Open Scope list_scope.
Local Open Scope Z_scope.

Lemma elems_not_block : forall v l, elems v l -> is_block v = false.
Proof. intros v l H. destruct H; reflexivity. Qed.

Lemma mod_nth : forall {A} (l : list A) i, l <> [] ->
  exists x, nth_error l (Z.to_nat (i mod zlen l)) = Some x.
Proof.
  intros A l i H. assert (0 < zlen l) by
    (unfold zlen; destruct l; [contradiction|simpl length; lia]).
  pose proof (Z.mod_pos_bound i (zlen l) ltac:(lia)) as B.
  destruct (nth_error l (Z.to_nat (i mod zlen l))) eqn:E; [eauto|].
  apply nth_error_None in E. unfold zlen in *. lia.
Qed.

Lemma index_cyclic : forall fmt v l i,
  elems v l -> l <> [] ->
  exists x, nth_error l (Z.to_nat (i mod Z.of_nat (length l))) = Some x
    /\ run_op fmt "@" [v; scal_Z i] = ret x.
Proof.
  intros fmt v l i H Hne. destruct (mod_nth l i Hne) as [x Hx].
  exists x. split; [exact Hx|].
  rewrite run_at by (try reflexivity; eapply elems_not_block, H).
  unfold scal_Z. cbn [at_val]. rewrite scalar_int_str.
  eapply at_idx_int; eassumption.
Qed.

Lemma index_first : forall fmt v x l,
  elems v (x :: l) -> run_op fmt "@" [v] = ret x.
Proof.
  intros fmt v x l H. destruct v; inversion H; subst;
    run_plain; eapply at_idx_int; try exact H; reflexivity.
Qed.

Lemma index_empty : forall fmt v i,
  elems v [] -> exists w, run_op fmt "@" [v; scal_Z i] = ([w], Val PNil).
Proof.
  intros fmt v i H. rewrite run_at by (try reflexivity; eapply elems_not_block, H).
  apply at_idx_empty, H.
Qed.

Lemma mapM_ret : forall {A B} (f : A -> pm B) (g : A -> B) l,
  (forall x, In x l -> f x = ret (g x)) -> mapM f l = ret (map g l).
Proof.
  intros A B f g. induction l as [|x l IH]; intro H; simpl; [reflexivity|].
  rewrite H by (left; reflexivity). unfold bind at 1. cbn.
  rewrite IH by (intros; apply H; right; assumption). reflexivity.
Qed.

Lemma mapM_Forall2 : forall {A B} (f : A -> pm B) (R : A -> B -> Prop) l,
  (forall x, In x l -> exists y, f x = ret y /\ R x y) ->
  exists ys, mapM f l = ret ys /\ Forall2 R l ys.
Proof.
  intros A B f R. induction l as [|x l IH]; intro H; simpl.
  - exists []. auto.
  - destruct (H x) as (y & E & Hy); [left; reflexivity|].
    destruct IH as (ys & E' & Hys); [intros; apply H; right; assumption|].
    exists (y :: ys). split; [|constructor; assumption].
    rewrite E. unfold bind at 1. cbn. rewrite E'. reflexivity.
Qed.

(** A List of indices selects the items one by one. *)
Lemma index_list : forall fmt v l is_,
  elems v l -> l <> [] ->
  exists xs, run_op fmt "@" [v; PList (map scal_Z is_)] = ret (PList xs)
    /\ Forall2 (fun i x => nth_error l (Z.to_nat (i mod Z.of_nat (length l)))
                           = Some x) is_ xs.
Proof.
  intros fmt v l is_ H Hne.
  rewrite run_at by (try reflexivity; eapply elems_not_block, H).
  cbn [at_val]. rewrite (elems_iterable v l H).
  destruct (mapM_Forall2 (fun i => at_val v (scal_Z i))
     (fun i x => nth_error l (Z.to_nat (i mod Z.of_nat (length l))) = Some x) is_)
    as (xs & E & F).
  { intros i _. destruct (mod_nth l i Hne) as [x Hx]. exists x. split; [|exact Hx].
    unfold scal_Z. cbn [at_val]. rewrite scalar_int_str.
    eapply at_idx_int; eassumption. }
  exists xs. split; [|exact F].
  assert (M : forall is_, mapM (fun i => at_val v i) (map scal_Z is_)
              = mapM (fun i => at_val v (scal_Z i)) is_).
  { clear. induction is_ as [|i is_ IH]; [reflexivity|]. cbn [map mapM].
    rewrite IH. reflexivity. }
  rewrite M, E. reflexivity.
Qed.

(** ** Slices *)

Lemma slice_at_scalar : forall fmt s a b, s <> [] ->
  exists r, run_op fmt "@" [PScal s; PRange a b] = ret (PScal r)
    /\ window s (from_end s 0 a) (from_end s (Z.of_nat (length s)) b) r.
Proof.
  intros fmt s a b Hne. rewrite run_at by reflexivity. cbn [at_val].
  unfold at_idx. cbn [is_iterable p_len p_getitem].
  destruct (seq_slice_window s Hne a b) as (r & E & W).
  exists r. split; [|exact W].
  destruct (Z.eqb_spec (zlen s) 0) as [Z0|_]; [apply (proj1 (zlen_zero s)) in Z0; contradiction|].
  rewrite E. reflexivity.
Qed.

Lemma slice_at_list : forall fmt l a b, l <> [] ->
  exists r, run_op fmt "@" [PList l; PRange a b] = ret (PList r)
    /\ window l (from_end l 0 a) (from_end l (Z.of_nat (length l)) b) r.
Proof.
  intros fmt s a b Hne. rewrite run_at by reflexivity. cbn [at_val].
  unfold at_idx. cbn [is_iterable p_len p_getitem].
  destruct (seq_slice_window s Hne a b) as (r & E & W).
  exists r. split; [|exact W].
  destruct (Z.eqb_spec (zlen s) 0) as [Z0|_]; [apply (proj1 (zlen_zero s)) in Z0; contradiction|].
  rewrite E. reflexivity.
Qed.

Lemma slice_at_empty : forall fmt v a b, elems v [] ->
  exists w, run_op fmt "@" [v; PRange a b] = ([w], Val PNil).
Proof.
  intros fmt v a b H. rewrite run_at by (try reflexivity; eapply elems_not_block, H).
  apply at_idx_empty, H.
Qed.

Lemma run_sliced : forall fmt text v l n,
  In text ["@<"; "@>"; "H"; "S"] -> elems v l ->
  run_op fmt text [v; scal_Z n]
  = lift (p_getitem v (ISlice (fst (slice_bounds text n))
                              (snd (slice_bounds text n)))).
Proof.
  intros fmt text v l n Ht Hv.
  assert (Ib : is_block v = false) by (eapply elems_not_block, Hv).
  assert (Ii : is_iterable v = true) by (eapply elems_iterable, Hv).
  simpl in Ht.
  destruct Ht as [<-|[<-|[<-|[<-|[]]]]];
    (run_plain; [| rewrite Ib; reflexivity | destruct v; reflexivity]).
  - unfold op_LEFTOF, or_default, sliced, scal_Z. rewrite Ii, scalar_int_str.
    reflexivity.
  - unfold op_RIGHTOF, or_default, sliced, scal_Z. rewrite Ii, scalar_int_str.
    reflexivity.
  - unfold op_PREFIX, or_default, sliced, scal_Z. rewrite Ii, scalar_int_str.
    reflexivity.
  - unfold op_SUFFIX, or_default, sliced, scal_Z. rewrite Ii, scalar_int_str.
    unfold suffix_slice, slice_bounds. simpl. destruct (n =? 0); reflexivity.
Qed.

Lemma sliced_scalar : forall fmt text s n,
  In text ["@<"; "@>"; "H"; "S"] -> s <> [] ->
  exists r, run_op fmt text [PScal s; scal_Z n] = ret (PScal r)
    /\ window s (from_end s 0 (fst (slice_bounds text n)))
                (from_end s (Z.of_nat (length s)) (snd (slice_bounds text n))) r.
Proof.
  intros fmt text s n Ht Hne.
  destruct (seq_slice_window s Hne (fst (slice_bounds text n))
              (snd (slice_bounds text n))) as (r & E & W).
  exists r. split; [|exact W].
  rewrite (run_sliced fmt text _ _ n Ht (elems_scal s)).
  cbn [p_getitem]. rewrite E. reflexivity.
Qed.

Lemma sliced_list : forall fmt text l n,
  In text ["@<"; "@>"; "H"; "S"] -> l <> [] ->
  exists r, run_op fmt text [PList l; scal_Z n] = ret (PList r)
    /\ window l (from_end l 0 (fst (slice_bounds text n)))
                (from_end l (Z.of_nat (length l)) (snd (slice_bounds text n))) r.
Proof.
  intros fmt text s n Ht Hne.
  destruct (seq_slice_window s Hne (fst (slice_bounds text n))
              (snd (slice_bounds text n))) as (r & E & W).
  exists r. split; [|exact W].
  rewrite (run_sliced fmt text _ _ n Ht (elems_list s)).
  cbn [p_getitem]. rewrite E. reflexivity.
Qed.

Lemma sliced_empty : forall fmt text n,
  In text ["@<"; "@>"; "H"; "S"] ->
  run_op fmt text [PScal []; scal_Z n] = ret (PScal [])
  /\ run_op fmt text [PList []; scal_Z n] = ret (PList []).
Proof.
  intros fmt text n Ht.
  rewrite (run_sliced fmt text _ _ n Ht (elems_scal [])),
          (run_sliced fmt text _ _ n Ht (elems_list [])).
  split; reflexivity.
Qed.

(** ** A finite Range and the List of its integers *)

Lemma p_list_elems : forall v l, elems v l -> p_list v = Val l.
Proof.
  intros v l H. rewrite <- (elems_p_iter v l H). destruct H; reflexivity.
Qed.

Lemma range_elems : forall lo u l, elems (PRange lo (Some u)) l ->
  l = map scal_Z (range_ints lo u).
Proof. intros lo u l H. eapply elems_det; [exact H|apply elems_range_ints]. Qed.

Lemma range_len_list : forall fmt lo u l, elems (PRange lo (Some u)) l ->
  run_op fmt "#" [PRange lo (Some u)] = run_op fmt "#" [PList l]
  /\ run_op fmt "#" [PList l] = ret (scal_Z (Z.of_nat (length l))).
Proof.
  intros fmt lo u l H. split.
  - run_plain. run_plain. unfold op_LEN. cbn [is_iterable].
    rewrite (elems_len _ _ H). reflexivity.
  - run_plain. reflexivity.
Qed.

Lemma range_truth_list : forall fmt lo u l, elems (PRange lo (Some u)) l ->
  run_op fmt "!" [PRange lo (Some u)] = run_op fmt "!" [PList l].
Proof.
  intros fmt lo u l H. run_plain. run_plain. unfold op_NOT.
  enough (E : p_bool (PRange lo (Some u)) = p_bool (PList l)) by (rewrite E; reflexivity).
  rewrite (range_elems _ _ _ H). unfold p_bool, p_is_empty, range_is_empty.
  destruct (Z.leb_spec u (lower0 lo)).
  - unfold range_ints. rewrite zseq_nil by lia. reflexivity.
  - unfold range_ints, zseq. destruct (Z.to_nat (u - lower0 lo)) eqn:E; [lia|].
    reflexivity.
Qed.

Lemma range_index_list : forall fmt lo u l i, elems (PRange lo (Some u)) l ->
  run_op fmt "@" [PRange lo (Some u); scal_Z i]
  = run_op fmt "@" [PList l; scal_Z i].
Proof.
  intros fmt lo u l i H. destruct l as [|y l].
  - rewrite !run_at by reflexivity. unfold scal_Z. cbn [at_val]. unfold at_idx.
    rewrite (elems_len _ _ H). reflexivity.
  - destruct (index_cyclic fmt _ _ i H) as (x & E & R); [discriminate|].
    destruct (index_cyclic fmt _ _ i (elems_list (y :: l))) as (x' & E' & R');
      [discriminate|].
    rewrite R, R'. congruence.
Qed.

Lemma range_slice_list : forall fmt lo u l a b, elems (PRange lo (Some u)) l ->
  (l = [] /\ run_op fmt "@" [PRange lo (Some u); PRange a b]
             = run_op fmt "@" [PList l; PRange a b])
  \/ exists w r, run_op fmt "@" [PRange lo (Some u); PRange a b] = ret w
       /\ run_op fmt "@" [PList l; PRange a b] = ret (PList r)
       /\ elems w r.
Proof.
  intros fmt lo u l a b H. destruct l as [|y l].
  - left. split; [reflexivity|].
    rewrite !run_at by reflexivity. cbn [at_val]. unfold at_idx.
    rewrite (elems_len _ _ H). reflexivity.
  - right. destruct (at_idx_slice _ _ a b H) as (w & r & E & Er & W); [discriminate|].
    destruct (slice_at_list fmt (y :: l) a b) as (r' & E' & W'); [discriminate|].
    exists w, r. rewrite run_at by reflexivity. split; [exact E|].
    split; [|exact Er]. rewrite E'. do 2 f_equal.
    eapply window_unique; eassumption.
Qed.

Lemma range_sliced_list : forall fmt text lo u l n,
  In text ["@<"; "@>"; "H"; "S"] ->
  elems (PRange lo (Some u)) l ->
  exists w r, run_op fmt text [PRange lo (Some u); scal_Z n] = ret w
    /\ run_op fmt text [PList l; scal_Z n] = ret (PList r)
    /\ elems w r.
Proof.
  intros fmt text lo u l n Ht H.
  rewrite (run_sliced fmt text _ _ n Ht H).
  destruct l as [|y l].
  - exists (PRange lo (Some u)), [].
    rewrite (proj2 (sliced_empty fmt text n Ht)).
    split; [|split; [reflexivity|exact H]].
    cbn [p_getitem].
    pose proof (range_elems _ _ _ H) as El. unfold range_is_empty.
    destruct (Z.leb_spec u (lower0 lo)); [reflexivity|exfalso].
    unfold range_ints, zseq in El. destruct (Z.to_nat (u - lower0 lo)) eqn:E; [lia|].
    discriminate.
  - destruct (p_getitem_slice _ _ (fst (slice_bounds text n))
               (snd (slice_bounds text n)) H) as (w & r & E & Er & W); [discriminate|].
    destruct (sliced_list fmt text (y :: l) n Ht) as (r' & E' & W'); [discriminate|].
    exists w, r. rewrite E. split; [reflexivity|]. split; [|exact Er].
    rewrite E'. do 2 f_equal. eapply window_unique; eassumption.
Qed.

Lemma existsb_zseq : forall lo u n,
  existsb (fun x => p_eqb x (scal_Z n)) (map scal_Z (zseq lo u))
  = (lo <=? n) && (n <? u).
Proof.
  intros lo u n. apply eq_true_iff_eq.
  rewrite existsb_exists, andb_true_iff, Z.leb_le, Z.ltb_lt.
  split.
  - intros (x & Hx & E). apply in_map_iff in Hx. destruct Hx as (z & <- & Hz).
    apply zseq_In in Hz. simpl in E. apply str_eqb_eq, str_of_Z_inj in E. lia.
  - intro H. exists (scal_Z n). split.
    + apply in_map, zseq_In. lia.
    + simpl. apply str_eqb_refl.
Qed.

Lemma num_leb_NI' : forall a b, num_leb (NI a) (NI b) = (a <=? b).
Proof. exact num_leb_NI. Qed.

Lemma range_contains_int : forall lo hi n,
  range_contains lo hi (str_of_Z n)
  = (lower0 lo <=? n) && match hi with Some u => n <? u | None => true end.
Proof.
  intros lo hi n. unfold range_contains. rewrite to_number_str, num_leb_NI.
  destruct hi; [rewrite num_ltb_NI|]; reflexivity.
Qed.
