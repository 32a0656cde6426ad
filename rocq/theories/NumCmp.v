(** * Facts about number comparison *)

From Coq Require Import List NArith ZArith Bool Arith Lia.
From Coq Require Import Floats.SpecFloat.
From Verif Require Import PyStr PyRe PyNum.
Import ListNotations.
Local Open Scope Z_scope.

Lemma num_compare_NI : forall a b, num_compare (NI a) (NI b) = Some (Z.compare a b).
Proof.
  intros a b. unfold num_compare, ext_of, dy_compare.
  rewrite Z.min_id, Z.sub_diag, !Z.pow_0_r, !Z.mul_1_r. reflexivity.
Qed.

Lemma num_leb_NI : forall a b, num_leb (NI a) (NI b) = (a <=? b).
Proof. intros. unfold num_leb. rewrite num_compare_NI. unfold Z.leb. destruct (a ?= b); reflexivity. Qed.
Lemma num_ltb_NI : forall a b, num_ltb (NI a) (NI b) = (a <? b).
Proof. intros. unfold num_ltb. rewrite num_compare_NI. unfold Z.ltb. destruct (a ?= b); reflexivity. Qed.
Lemma num_gtb_NI : forall a b, num_gtb (NI a) (NI b) = (a >? b).
Proof. intros. unfold num_gtb. rewrite num_compare_NI. unfold Z.gtb. destruct (a ?= b); reflexivity. Qed.
Lemma num_geb_NI : forall a b, num_geb (NI a) (NI b) = (a >=? b).
Proof. intros. unfold num_geb. rewrite num_compare_NI. unfold Z.geb. destruct (a ?= b); reflexivity. Qed.
Lemma num_eqb_NI : forall a b, num_eqb (NI a) (NI b) = (a =? b).
Proof.
  intros. unfold num_eqb. rewrite num_compare_NI.
  destruct (Z.compare_spec a b); symmetry;
    [apply Z.eqb_eq|apply Z.eqb_neq|apply Z.eqb_neq]; lia.
Qed.

(** The exact value of a dyadic pair, scaled: comparing at any common exponent
    below both gives the same answer. *)
Lemma dy_compare_at : forall m1 e1 m2 e2 e,
  e <= e1 -> e <= e2 ->
  dy_compare m1 e1 m2 e2 = Z.compare (m1 * 2 ^ (e1 - e)) (m2 * 2 ^ (e2 - e)).
Proof.
  intros m1 e1 m2 e2 e H1 H2. unfold dy_compare. cbv zeta.
  set (m := Z.min e1 e2).
  replace (e1 - e) with ((e1 - m) + (m - e)) by lia.
  replace (e2 - e) with ((e2 - m) + (m - e)) by lia.
  rewrite !Z.pow_add_r by lia. rewrite !Z.mul_assoc.
  assert (0 < 2 ^ (m - e)) by (apply Z.pow_pos_nonneg; lia).
  symmetry. rewrite <- Zmult_compare_compat_r by lia. reflexivity.
Qed.

(** ** A total preorder away from NaN *)

Definition ext_compare (a b : ext) : option comparison :=
  match a, b with
  | ENaN, _ => None
  | _, ENaN => None
  | ENegInf, ENegInf => Some Eq
  | ENegInf, _ => Some Lt
  | _, ENegInf => Some Gt
  | EPosInf, EPosInf => Some Eq
  | EPosInf, _ => Some Gt
  | _, EPosInf => Some Lt
  | EDy m1 e1, EDy m2 e2 => Some (dy_compare m1 e1 m2 e2)
  end.

Lemma num_compare_ext : forall a b,
  num_compare a b = ext_compare (ext_of a) (ext_of b).
Proof. reflexivity. Qed.

Definition num_is_nan (a : num) : bool :=
  match a with NF S754_nan => true | _ => false end.

Lemma ext_of_nan : forall a, ext_of a = ENaN <-> num_is_nan a = true.
Proof.
  intros [z|f]; simpl; [split; discriminate|].
  destruct f as [s|s| |s m e]; simpl; split; try discriminate; auto;
    try (destruct s; discriminate).
Qed.

Lemma dy_compare_sym : forall m1 e1 m2 e2,
  dy_compare m2 e2 m1 e1 = CompOpp (dy_compare m1 e1 m2 e2).
Proof.
  intros. unfold dy_compare. rewrite (Z.min_comm e2 e1). cbv zeta.
  apply Z.compare_antisym.
Qed.

Lemma num_compare_sym : forall a b,
  num_compare b a = option_map CompOpp (num_compare a b).
Proof.
  intros a b. rewrite !num_compare_ext.
  destruct (ext_of a), (ext_of b); simpl; try reflexivity.
  rewrite dy_compare_sym. reflexivity.
Qed.

Lemma num_compare_some : forall a b,
  num_is_nan a = false -> num_is_nan b = false ->
  exists c, num_compare a b = Some c.
Proof.
  intros a b Ha Hb. rewrite num_compare_ext.
  assert (ext_of a <> ENaN) by (rewrite ext_of_nan; congruence).
  assert (ext_of b <> ENaN) by (rewrite ext_of_nan; congruence).
  destruct (ext_of a), (ext_of b); simpl; try congruence; eauto.
Qed.

Lemma dy_le_trans : forall m1 e1 m2 e2 m3 e3,
  dy_compare m1 e1 m2 e2 <> Gt -> dy_compare m2 e2 m3 e3 <> Gt ->
  dy_compare m1 e1 m3 e3 <> Gt.
Proof.
  intros m1 e1 m2 e2 m3 e3.
  set (e := Z.min e1 (Z.min e2 e3)).
  rewrite (dy_compare_at m1 e1 m2 e2 e), (dy_compare_at m2 e2 m3 e3 e),
          (dy_compare_at m1 e1 m3 e3 e) by lia.
  rewrite !Z.compare_gt_iff. lia.
Qed.

Lemma dy_lt_trans : forall m1 e1 m2 e2 m3 e3,
  dy_compare m1 e1 m2 e2 = Lt -> dy_compare m2 e2 m3 e3 <> Gt ->
  dy_compare m1 e1 m3 e3 = Lt.
Proof.
  intros m1 e1 m2 e2 m3 e3.
  set (e := Z.min e1 (Z.min e2 e3)).
  rewrite (dy_compare_at m1 e1 m2 e2 e), (dy_compare_at m2 e2 m3 e3 e),
          (dy_compare_at m1 e1 m3 e3 e) by lia.
  rewrite Z.compare_gt_iff, !Z.compare_lt_iff. lia.
Qed.

Lemma dy_lt_trans' : forall m1 e1 m2 e2 m3 e3,
  dy_compare m1 e1 m2 e2 <> Gt -> dy_compare m2 e2 m3 e3 = Lt ->
  dy_compare m1 e1 m3 e3 = Lt.
Proof.
  intros m1 e1 m2 e2 m3 e3.
  set (e := Z.min e1 (Z.min e2 e3)).
  rewrite (dy_compare_at m1 e1 m2 e2 e), (dy_compare_at m2 e2 m3 e3 e),
          (dy_compare_at m1 e1 m3 e3 e) by lia.
  rewrite Z.compare_gt_iff, !Z.compare_lt_iff. lia.
Qed.

Lemma num_le_trans : forall a b c,
  num_leb a b = true -> num_leb b c = true -> num_leb a c = true.
Proof.
  intros a b c. unfold num_leb. rewrite !num_compare_ext.
  destruct (ext_of a) as [| | |m1 e1], (ext_of b) as [| | |m2 e2],
    (ext_of c) as [| | |m3 e3]; simpl; try discriminate; auto.
  intros H1 H2.
  pose proof (dy_le_trans m1 e1 m2 e2 m3 e3).
  destruct (dy_compare m1 e1 m2 e2), (dy_compare m2 e2 m3 e3),
    (dy_compare m1 e1 m3 e3); try discriminate; auto;
    exfalso; apply H; congruence.
Qed.

Lemma num_lt_le_trans : forall a b c,
  num_ltb a b = true -> num_leb b c = true -> num_ltb a c = true.
Proof.
  intros a b c. unfold num_leb, num_ltb. rewrite !num_compare_ext.
  destruct (ext_of a) as [| | |m1 e1], (ext_of b) as [| | |m2 e2],
    (ext_of c) as [| | |m3 e3]; simpl; try discriminate; auto.
  intros H1 H2.
  rewrite (dy_lt_trans m1 e1 m2 e2 m3 e3); [reflexivity| |].
  - destruct (dy_compare m1 e1 m2 e2); congruence.
  - destruct (dy_compare m2 e2 m3 e3); congruence.
Qed.

Lemma num_le_lt_trans : forall a b c,
  num_leb a b = true -> num_ltb b c = true -> num_ltb a c = true.
Proof.
  intros a b c. unfold num_leb, num_ltb. rewrite !num_compare_ext.
  destruct (ext_of a) as [| | |m1 e1], (ext_of b) as [| | |m2 e2],
    (ext_of c) as [| | |m3 e3]; simpl; try discriminate; auto.
  intros H1 H2.
  rewrite (dy_lt_trans' m1 e1 m2 e2 m3 e3); [reflexivity| |].
  - destruct (dy_compare m1 e1 m2 e2); congruence.
  - destruct (dy_compare m2 e2 m3 e3); congruence.
Qed.

Lemma num_lt_le : forall a b, num_ltb a b = true -> num_leb a b = true.
Proof.
  intros a b. unfold num_ltb, num_leb. destruct (num_compare a b) as [[]|]; auto.
Qed.

(** ** No Scalar reads as NaN *)

Lemma set_sign_nan : forall s f, f <> S754_nan -> set_sign s f <> S754_nan.
Proof. intros [] [] H; simpl; congruence. Qed.

Lemma iter_pos_inv : forall {A} (P : A -> Prop) (f : A -> A),
  (forall x, P x -> P (f x)) -> forall n x, P x -> P (iter_pos f n x).
Proof. intros A P f H. induction n; simpl; intros x Hx; auto. Qed.

Lemma shr_fexp_nonneg : forall p e mx ex lx,
  0 <= mx -> 0 <= shr_m (fst (shr_fexp p e mx ex lx)).
Proof.
  intros p e mx ex lx H. unfold shr_fexp, shr.
  assert (H0 : 0 <= shr_m (shr_record_of_loc mx lx)).
  { destruct lx as [|[]]; exact H. }
  destruct (fexp p e (Zdigits2 mx + ex) - ex); try exact H0.
  cbn [fst]. apply (iter_pos_inv (fun r => 0 <= shr_m r)); [|exact H0].
  intros [m r s] Hm. simpl in Hm |- *. destruct m as [|[]|]; simpl; lia.
Qed.

Lemma binary_round_aux_nan : forall p e s mx ex lx,
  0 <= mx -> binary_round_aux p e s mx ex lx <> S754_nan.
Proof.
  intros p e s mx ex lx H. unfold binary_round_aux.
  pose proof (shr_fexp_nonneg p e mx ex lx H) as H1.
  destruct (shr_fexp p e mx ex lx) as [mrs' e']. cbn [fst] in H1.
  assert (H2 : 0 <= round_nearest_even (shr_m mrs') (loc_of_shr_record mrs')).
  { unfold round_nearest_even. destruct (loc_of_shr_record mrs') as [|[]];
      try destruct (Z.even _); lia. }
  pose proof (shr_fexp_nonneg p e _ e' loc_Exact H2) as H3.
  destruct (shr_fexp p e _ e' loc_Exact) as [mrs'' e'']. cbn [fst] in H3.
  destruct (shr_m mrs''); try discriminate; [|lia].
  destruct (Z.leb e'' (e - p)); discriminate.
Qed.

Lemma float_of_Z_raw_nan : forall z, float_of_Z_raw z <> S754_nan.
Proof.
  intros [|p|p]; unfold float_of_Z_raw, binary_normalize; [discriminate| |];
    unfold binary_round; destruct (shl_align _ _ _) as [mz ez];
    apply binary_round_aux_nan; lia.
Qed.

Lemma round_ratio_nan : forall s a b, round_ratio s a b <> S754_nan.
Proof.
  intros s a b. unfold round_ratio, SFdiv_core_binary. cbv zeta.
  set (sh := 0 - 0 - _).
  assert (Hm : 0 <= match sh with
                    | 0 => Zpos a
                    | Zpos _ => Z.shiftl (Zpos a) sh
                    | Zneg _ => 0 end).
  { destruct sh; try lia. apply Z.shiftl_nonneg. lia. }
  match type of Hm with 0 <= ?m =>
    pose proof (Z.div_pos m (Zpos b) Hm ltac:(lia)) as Hq;
    unfold Z.div in Hq; destruct (Z.div_eucl m (Z.pos b)) as [q r] end.
  apply binary_round_aux_nan. exact Hq.
Qed.

Lemma float_of_decimal_nan : forall n m e, float_of_decimal n m e <> S754_nan.
Proof.
  intros n [|p] e; unfold float_of_decimal; [discriminate|].
  destruct (0 <=? e) eqn:E.
  - apply set_sign_nan, float_of_Z_raw_nan.
  - assert (0 < 10 ^ (- e)) by (apply Z.pow_pos_nonneg; lia).
    destruct (10 ^ (- e)); [lia| |lia]. apply round_ratio_nan.
Qed.

Lemma to_number_not_nan : forall s, num_is_nan (to_number s) = false.
Proof.
  intro s. unfold to_number. cbv zeta.
  destruct (match_re py_float_re (lstrip is_space s)) as [r|].
  - unfold float_of_numeral.
    repeat match goal with |- context [let '(_, _) := ?x in _] =>
      destruct x end.
    pose proof float_of_decimal_nan.
    simpl. destruct (float_of_decimal _ _ _) eqn:E; auto.
    exfalso. eapply H, E.
  - destruct (match_re int_re (lstrip is_space s)); reflexivity.
Qed.
