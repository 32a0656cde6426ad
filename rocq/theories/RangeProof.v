(** * Ranges: iteration by operators, infinite Ranges, shifting *)

From Coq Require Import String List NArith ZArith Bool Arith Lia ZifyBool.
From Verif Require Import PyStr PyRe PyNum Tokens OpFun OpTable Unparse PTypes
                          Ops OpsSeq Apply RunOp StrFacts NumFacts NumCmp Spec
                          PFacts SeqProof SeqProof2.
Import ListNotations.
Local Open Scope string_scope.
Local Open Scope list_scope.
Local Open Scope Z_scope.

Lemma range_iter_list : forall fmt text lo u l, In text iterating_ops ->
  elems (PRange lo (Some u)) l ->
  run_op fmt text [PRange lo (Some u)] = run_op fmt text [PList l].
Proof.
  intros fmt text lo u l Ht H.
  pose proof (elems_p_iter _ _ H) as HI. pose proof (p_list_elems _ _ H) as HL.
  simpl in Ht.
  repeat destruct Ht as [<-|Ht]; try contradiction; run_plain; run_plain.
  all: try unfold op_ENUMERATE; try unfold op_REVERSE; try unfold op_REFLECT;
       try unfold op_PALINDROMIZE; try unfold op_MAX; try unfold op_MIN;
       try unfold op_SORTNUM; try unfold op_DESCENDINGNUM;
       try unfold op_SORTSTRING; try unfold op_DESCENDINGSTRING;
       try unfold op_FLATTEN; try unfold op_FLATTENALL;
       try unfold op_PERMUTATIONS; try unfold op_best; try unfold op_sort_num;
       try unfold op_sort_str; try unfold mirror;
       cbn [is_iterable is_list_or_range infinite p_is_finite negb is_scalar];
       rewrite ?HI, ?HL; try reflexivity.
  rewrite (range_elems _ _ _ H). cbn [flatten_items].
  assert (F : forall zs, mapR flatten_items (map scal_Z zs)
              = Val (map (fun z => [scal_Z z]) zs)).
  { induction zs as [|z zs IH]; [reflexivity|]. cbn [map mapR].
    unfold scal_Z at 1. cbn [flatten_items rbind]. rewrite IH. reflexivity. }
  rewrite F. cbn [rbind].
  assert (C : forall zs, concat (map (fun z => [scal_Z z]) zs) = map scal_Z zs).
  { induction zs as [|z zs IH]; [reflexivity|]. cbn [map concat app]. congruence. }
  rewrite C. reflexivity.
Qed.

(** ** Infinite Ranges *)

Lemma inf_index : forall fmt lo i, 0 <= i ->
  run_op fmt "@" [PRange lo None; scal_Z i] = ret (scal_Z (range_start lo + i)).
Proof.
  intros fmt lo i Hi. rewrite run_at by reflexivity. unfold scal_Z. cbn [at_val].
  rewrite scalar_int_str. unfold at_idx.
  cbn [is_iterable p_len range_len p_getitem range_is_empty].
  destruct (Z.ltb_spec i 0); [lia|]. destruct lo; reflexivity.
Qed.

Lemma inf_index_neg : forall fmt lo i, i < 0 ->
  run_op fmt "@" [PRange lo None; scal_Z i] = ret PNil.
Proof.
  intros fmt lo i Hi. rewrite run_at by reflexivity. unfold scal_Z. cbn [at_val].
  rewrite scalar_int_str. unfold at_idx.
  cbn [is_iterable p_len range_len p_getitem range_is_empty].
  destruct (Z.ltb_spec i 0); [|lia]. reflexivity.
Qed.

Lemma inf_slice_finite : forall fmt lo a b,
  0 <= range_start a -> 0 <= b ->
  exists w, run_op fmt "@" [PRange lo None; PRange a (Some b)] = ret w
    /\ elems w (map scal_Z (ints_from (range_start lo + range_start a)
                                      (Z.to_nat (b - range_start a)))).
Proof.
  intros fmt lo a b Ha Hb. rewrite run_at by reflexivity. cbn [at_val].
  unfold at_idx. cbn [is_iterable p_len range_len p_getitem range_is_empty].
  destruct (Z.ltb_spec b 0); [lia|].
  destruct a as [a|]; cbn [range_start] in *.
  - destruct (Z.ltb_spec a 0); [lia|]. cbn [orb].
    eexists. split; [reflexivity|]. unfold mk_range.
    pose proof (elems_range (Some (lower0 lo + a)) (lower0 lo + b)) as E.
    cbv zeta iota beta in E.
    replace (lower0 lo + b - (lower0 lo + a)) with (b - a) in E by lia.
    destruct lo; exact E.
  - cbn [orb]. eexists. split; [reflexivity|]. unfold mk_range.
    pose proof (elems_range lo (lower0 lo + b)) as E. cbv zeta in E.
    replace (lower0 lo + b - match lo with Some z => z | None => 0 end)
      with (b - 0) in E by (destruct lo; simpl; lia).
    rewrite Z.add_0_r. destruct lo; exact E.
Qed.

Lemma inf_slice_inf : forall fmt lo a, 0 <= range_start a ->
  exists lo', run_op fmt "@" [PRange lo None; PRange a None] = ret (PRange lo' None)
    /\ range_start lo' = range_start lo + range_start a.
Proof.
  intros fmt lo a Ha. rewrite run_at by reflexivity. cbn [at_val].
  unfold at_idx. cbn [is_iterable p_len range_len p_getitem range_is_empty].
  destruct a as [a|]; cbn [range_start] in *.
  - destruct (Z.ltb_spec a 0); [lia|]. cbn [orb]. eexists. split; [reflexivity|].
    destruct lo; reflexivity.
  - cbn [orb]. exists lo. split; [reflexivity|]. lia.
Qed.

Lemma inf_slice_neg : forall fmt lo a b,
  range_start a < 0 \/ range_start b < 0 ->
  run_op fmt "@" [PRange lo None; PRange a b] = ret PNil.
Proof.
  intros fmt lo a b H. rewrite run_at by reflexivity. cbn [at_val].
  unfold at_idx. cbn [is_iterable p_len range_len p_getitem range_is_empty].
  match goal with |- context [if ?c then Val PNil else _] =>
    replace c with true; [reflexivity|] end.
  destruct a as [a|], b as [b|]; cbn [range_start] in H; lia.
Qed.

Lemma inf_in : forall fmt lo n,
  run_op fmt "N" [scal_Z n; PRange lo None]
  = ret (scal_Z (if range_start lo <=? n then 1 else 0)).
Proof.
  intros fmt lo n. run_plain. unfold scal_Z. cbn [op_IN p_count p_contains].
  rewrite range_contains_int, andb_true_r. destruct lo; reflexivity.
Qed.

Lemma inf_find : forall fmt lo n,
  run_op fmt "@?" [PRange lo None; scal_Z n]
  = ret (if range_start lo <=? n then scal_Z (n - range_start lo) else PNil).
Proof.
  intros fmt lo n. run_plain. unfold op_FIND, scal_Z.
  cbn [is_scalar_or_range each_item]. unfold find1.
  cbn [is_scalar is_iterable andb orb p_index p_getitem range_is_empty].
  cbn [Z.of_nat Z.ltb Z.compare orb rbind mk_range p_contains].
  rewrite range_contains_int, andb_true_r, scalar_int_str, to_number_str,
    num_eqb_NI, Z.eqb_refl. cbn [lower0].
  replace (lower0 lo + 0) with (range_start lo) by (destruct lo; simpl; lia).
  destruct (range_start lo <=? n); destruct lo; reflexivity.
Qed.

Lemma inf_true : forall fmt lo,
  run_op fmt "!" [PRange lo None] = ret (scal_Z 0).
Proof. intros. run_plain. reflexivity. Qed.

Lemma inf_len : forall fmt lo,
  exists w, run_op fmt "#" [PRange lo None] = ([w], Val PNil).
Proof. intros. run_plain. eexists. reflexivity. Qed.

(** ** Shifting *)

Lemma ints_from_shift : forall n z k,
  map (fun i => i + k) (ints_from z n) = ints_from (z + k) n.
Proof.
  induction n as [|n IH]; intros z k; simpl; [reflexivity|].
  rewrite IH. do 2 f_equal. lia.
Qed.

Lemma shifted_elems : forall lo u k l,
  elems (PRange lo (Some u)) (map scal_Z l) ->
  elems (PRange (Some (lower0 lo + k)) (Some (u + k)))
        (map scal_Z (map (fun i => i + k) l)).
Proof.
  intros lo u k l H. apply range_elems in H.
  assert (l = range_ints lo u).
  { revert H. generalize (range_ints lo u). clear. induction l as [|x l IH];
      intros [|y l']; simpl; try discriminate; [reflexivity|].
    intro H. injection H as H1 H2. apply str_of_Z_inj in H1. f_equal; auto. }
  subst l. unfold range_ints. rewrite zseq_ints_from, ints_from_shift.
  pose proof (elems_range (Some (lower0 lo + k)) (u + k)) as E.
  cbv zeta iota beta in E.
  replace (u + k - (lower0 lo + k)) with (u - lower0 lo) in E by lia. exact E.
Qed.

Lemma add_shift : forall fmt lo u k l,
  elems (PRange lo (Some u)) (map scal_Z l) ->
  exists w, run_op fmt "+" [PRange lo (Some u); scal_Z k] = ret w
    /\ run_op fmt "+" [scal_Z k; PRange lo (Some u)] = ret w
    /\ elems w (map scal_Z (map (fun i => i + k) l)).
Proof.
  intros fmt lo u k l H. eexists. split; [|split; [|apply shifted_elems, H]].
  - run_plain. unfold scal_Z. cbn [op_ADD]. unfold add_scal_range.
    rewrite scalar_int_str, to_number_str, num_eqb_NI, Z.eqb_refl. reflexivity.
  - run_plain. unfold scal_Z. cbn [op_ADD]. unfold add_scal_range.
    rewrite scalar_int_str, to_number_str, num_eqb_NI, Z.eqb_refl. reflexivity.
Qed.

Lemma sub_shift : forall fmt lo u k l,
  elems (PRange lo (Some u)) (map scal_Z l) ->
  exists w, run_op fmt "-" [PRange lo (Some u); scal_Z k] = ret w
    /\ elems w (map scal_Z (map (fun i => i - k) l)).
Proof.
  intros fmt lo u k l H. exists (PRange (Some (lower0 lo + - k)) (Some (u + - k))).
  split; [|exact (shifted_elems _ _ (- k) _ H)].
  run_plain. unfold scal_Z. cbn [op_SUB]. rewrite scalar_int_str. reflexivity.
Qed.

Lemma add_inf_wrong :
  ~ (forall fmt lo k, exists lo',
       run_op fmt "+" [PRange lo None; scal_Z k] = ret (PRange lo' None)
       /\ range_start lo' = range_start lo + k).
Proof.
  intro H. destruct (H FmtNone (Some 2) 3) as (lo' & E & _). vm_compute in E.
  discriminate.
Qed.

Lemma sub_inf_wrong :
  ~ (forall fmt lo k, exists lo',
       run_op fmt "-" [PRange lo None; scal_Z k] = ret (PRange lo' None)
       /\ range_start lo' = range_start lo - k).
Proof.
  intro H. destruct (H FmtNone (Some 2) 3) as (lo' & E & _). vm_compute in E.
  discriminate.
Qed.
