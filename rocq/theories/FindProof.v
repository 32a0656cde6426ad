(** * Searching: FIND, FINDALL, IN *)

From Coq Require Import String List NArith ZArith Bool Arith Lia Sorted ZifyBool.
From Verif Require Import PyStr PyRe PyNum Tokens OpFun OpTable Unparse PTypes
                          Ops OpsSeq Apply RunOp StrFacts NumFacts NumCmp Spec
                          PFacts SeqProof SeqProof2.
Import ListNotations.
Local Open Scope string_scope.
Local Open Scope list_scope.
Local Open Scope Z_scope.

Lemma list_index_from_spec : forall item l i, plain item = true ->
  match list_index_from item i l with
  | Some n => exists k, n = (i + k)%nat /\ least (fun k => nth_error l k = Some item) k
  | None => forall k, nth_error l k <> Some item
  end.
Proof.
  intros item l i Hp. revert i. induction l as [|x l IH]; intro i; simpl.
  - intros [|k]; discriminate.
  - pose proof (p_eqb_plain_r x item Hp) as E. destruct (p_eqb x item).
    + exists O. split; [lia|]. split; [|intros; lia]. simpl. f_equal. apply E; reflexivity.
    + specialize (IH (S i)). destruct (list_index_from item (S i) l) as [n|].
      * destruct IH as (k & -> & H1 & H2). exists (S k). split; [lia|].
        split; [exact H1|]. intros [|j] Hj; simpl.
        -- intro H. injection H as H. apply E in H. discriminate.
        -- apply H2. lia.
      * intros [|k]; simpl; [|apply IH].
        intro H. injection H as H. apply E in H. discriminate.
Qed.

Lemma nth_error_skipn' : forall {A} (l : list A) k i,
  nth_error (skipn k l) i = nth_error l (k + i).
Proof.
  intros A l k. revert l. induction k as [|k IH]; intros l i; simpl; [reflexivity|].
  destruct l; [destruct i; reflexivity|]. apply IH.
Qed.

Lemma p_index_spec : forall v item start,
  searchable v item = true -> plain item = true ->
  match p_index v item start with
  | Val z => exists n, z = Z.of_nat n /\ (start <= n)%nat /\ item_at v item n
                 /\ forall i, (start <= i < n)%nat -> ~ item_at v item i
  | Exn e => e = ValueError /\ forall i, (start <= i)%nat -> ~ item_at v item i
  end.
Proof.
  intros v item start Hs Hp.
  destruct v; try discriminate; cbn [p_index].
  - destruct item; try discriminate. cbn [item_at].
    unfold str_index. destruct (Nat.ltb_spec (length s) start) as [L|L].
    + split; [reflexivity|]. intros i Hi H. apply occurs_at_bound in H. lia.
    + pose proof (str_find_spec s0 (skipn start s)) as F.
      destruct (str_find s0 (skipn start s)) as [n|]; cbn [option_map].
      * destruct F as [F1 F2]. exists (start + n)%nat. split; [reflexivity|].
        split; [lia|]. split; [apply occurs_at_skipn; assumption|].
        intros i Hi H. apply (F2 (i - start)%nat); [lia|].
        apply occurs_at_skipn; [assumption|].
        replace (start + (i - start))%nat with i by lia. exact H.
      * split; [reflexivity|]. intros i Hi H. apply (F (i - start)%nat).
        apply occurs_at_skipn; [assumption|].
        replace (start + (i - start))%nat with i by lia. exact H.
  - pose proof (list_index_from_spec item (skipn start l) start Hp) as F.
    cbn [item_at].
    destruct (list_index_from item start (skipn start l)) as [n|].
    + destruct F as (k & -> & F1 & F2). exists (start + k)%nat.
      rewrite nth_error_skipn' in F1.
      split; [reflexivity|]. split; [lia|]. split; [exact F1|].
      intros i Hi H. apply (F2 (i - start)%nat); [lia|].
      rewrite nth_error_skipn'.
      replace (start + (i - start))%nat with i by lia. exact H.
    + split; [reflexivity|]. intros i Hi H. apply (F (i - start)%nat).
      rewrite nth_error_skipn'.
      replace (start + (i - start))%nat with i by lia. exact H.
Qed.

Lemma plain_not_block : forall v, plain v = true -> is_block v = false.
Proof. intros []; simpl; congruence. Qed.

Lemma searchable_not_block : forall v item, searchable v item = true -> is_block v = false.
Proof. intros []; simpl; congruence. Qed.

Lemma run_find : forall fmt v item,
  searchable v item = true -> plain item = true ->
  run_op fmt "@?" [v; item] = match p_index v item 0 with
                              | Val i => ret (scal_Z i)
                              | Exn _ => ret PNil
                              end.
Proof.
  intros fmt v item Hs Hp.
  run_plain; [| rewrite (searchable_not_block _ _ Hs), (plain_not_block _ Hp); reflexivity
              | destruct v, item; reflexivity].
  unfold op_FIND. destruct v; try discriminate.
  - destruct item; try discriminate. reflexivity.
  - destruct item; reflexivity.
Qed.

Lemma find_spec : forall fmt v item,
  searchable v item = true -> plain item = true ->
  (exists n, run_op fmt "@?" [v; item] = ret (scal_Z (Z.of_nat n))
             /\ least (item_at v item) n)
  \/ (run_op fmt "@?" [v; item] = ret PNil /\ forall i, ~ item_at v item i).
Proof.
  intros fmt v item Hs Hp. rewrite (run_find fmt v item Hs Hp).
  pose proof (p_index_spec v item 0 Hs Hp) as P.
  destruct (p_index v item 0) as [z|e].
  - destruct P as (n & -> & _ & H1 & H2). left. exists n. split; [reflexivity|].
    split; [exact H1|]. intros i Hi. apply H2. lia.
  - right. split; [reflexivity|]. intro i. apply P. lia.
Qed.

Lemma item_at_len : forall v item n i, p_len v = Val n -> item_at v item i ->
  Z.of_nat i <= n.
Proof.
  intros v item n i L H. destruct v; simpl in H, L; try contradiction.
  - destruct item; try contradiction. apply occurs_at_bound in H.
    injection L as <-. unfold zlen. lia.
  - assert (i < length l)%nat by (apply nth_error_Some; congruence).
    injection L as <-. unfold zlen. lia.
Qed.

Lemma find_all_from_spec : forall v item n, 
  searchable v item = true -> plain item = true -> p_len v = Val n ->
  forall fuel start,
  (Z.to_nat n + 2 <= fuel + start)%nat -> (start <= Z.to_nat n + 1)%nat ->
  exists ps, find_all_from fuel v item start
             = ret (map (fun k => scal_Z (Z.of_nat k)) ps)
    /\ StronglySorted lt ps
    /\ forall i, In i ps <-> (start <= i)%nat /\ item_at v item i.
Proof.
  intros v item n Hs Hp L. induction fuel as [|fuel IH]; intros start Hf Hb; [lia|].
  cbn [find_all_from]. pose proof (p_index_spec v item start Hs Hp) as P.
  destruct (p_index v item start) as [z|e].
  - destruct P as (k & -> & Hk & H1 & H2). rewrite Nat2Z.id.
    pose proof (item_at_len _ _ _ _ L H1) as Bk.
    destruct (IH (S k)) as (ps & E & S1 & M); [lia|lia|].
    exists (k :: ps). rewrite E, bind_ret. split; [reflexivity|]. split.
    + constructor; [exact S1|]. apply Forall_forall. intros i Hi. apply M in Hi. lia.
    + intro i. simpl. rewrite M. split.
      * intros [<-|[Hi Hat]]; [auto|split; [lia|exact Hat]].
      * intros [Hi Hat]. destruct (Nat.lt_trichotomy i k) as [C|[C|C]].
        -- exfalso. apply (H2 i); [lia|exact Hat].
        -- auto.
        -- right. split; [lia|exact Hat].
  - destruct P as [-> P]. exists []. split; [reflexivity|]. split; [constructor|].
    intro i. simpl. split; [contradiction|]. intros [Hi Hat]. exact (P i Hi Hat).
Qed.

Lemma run_find_all : forall fmt v item,
  searchable v item = true -> plain item = true ->
  run_op fmt "@*" [v; item]
  = (do l <- find_all_from (find_fuel v) v item 0; ret (PList l)).
Proof.
  intros fmt v item Hs Hp.
  run_plain; [| rewrite (searchable_not_block _ _ Hs), (plain_not_block _ Hp); reflexivity
              | destruct v, item; reflexivity].
  unfold op_FINDALL. destruct v; try discriminate.
  - destruct item; try discriminate. reflexivity.
  - destruct item; reflexivity.
Qed.

Lemma find_all_spec : forall fmt v item,
  searchable v item = true -> plain item = true ->
  exists ps, run_op fmt "@*" [v; item]
             = ret (PList (map (fun k => scal_Z (Z.of_nat k)) ps))
    /\ StronglySorted lt ps
    /\ forall i, In i ps <-> item_at v item i.
Proof.
  intros fmt v item Hs Hp. rewrite (run_find_all fmt v item Hs Hp).
  assert (exists n, p_len v = Val n /\ 0 <= n) as (n & L & Hn).
  { destruct v; try discriminate; eexists; (split; [reflexivity|unfold zlen; lia]). }
  unfold find_fuel. rewrite L.
  destruct (find_all_from_spec v item n Hs Hp L (Z.to_nat n + 2) 0) as (ps & E & S1 & M);
    [lia|lia|].
  exists ps. rewrite E, bind_ret. split; [reflexivity|]. split; [exact S1|].
  intro i. rewrite M. split; [tauto|]. intro H. split; [lia|exact H].
Qed.

(** ** Ranges *)

Lemma range_in_list : forall fmt lo u l n, elems (PRange lo (Some u)) l ->
  run_op fmt "N" [scal_Z n; PRange lo (Some u)]
  = run_op fmt "N" [scal_Z n; PList l].
Proof.
  intros fmt lo u l n H. run_plain. run_plain. unfold scal_Z.
  cbn [op_IN p_count p_contains]. rewrite range_contains_int.
  rewrite (range_elems _ _ _ H). unfold range_ints, scal_bool.
  generalize (lower0 lo). clear. intro z.
  unfold rbind, lift. do 3 f_equal.
  assert (F : forall k z, length (filter (fun x => p_eqb x (PScal (str_of_Z n)))
                (map scal_Z (ints_from z k)))
              = if (z <=? n) && (n <? z + Z.of_nat k) then 1%nat else O).
  { induction k as [|k IH]; intro z0.
    - cbn [ints_from map filter length].
      destruct ((z0 <=? n) && (n <? z0 + Z.of_nat 0)) eqn:E0; lia.
    - cbn [ints_from map filter].
      assert (Ed : p_eqb (scal_Z z0) (PScal (str_of_Z n)) = (z0 =? n)).
      { unfold scal_Z. cbn [p_eqb]. apply eq_true_iff_eq.
        rewrite str_eqb_eq, Z.eqb_eq. split; [apply str_of_Z_inj|congruence]. }
      rewrite Ed. clear Ed. destruct (Z.eqb_spec z0 n) as [E2|Ne]; [subst z0|].
      + cbn [length]. rewrite IH.
        destruct ((n <=? n) && (n <? n + Z.of_nat (S k))) eqn:E0,
          ((n + 1 <=? n) && (n <? n + 1 + Z.of_nat k)) eqn:E1; lia.
      + rewrite IH.
        destruct ((z0 <=? n) && (n <? z0 + Z.of_nat (S k))) eqn:E0,
          ((z0 + 1 <=? n) && (n <? z0 + 1 + Z.of_nat k)) eqn:E1; lia. }
  rewrite zseq_ints_from, F.
  destruct (Z.leb_spec z n), (Z.ltb_spec n u),
    (Z.ltb_spec n (z + Z.of_nat (Z.to_nat (u - z)))); simpl; lia || reflexivity.
Qed.

Lemma range_p_index : forall lo u n start, 
  p_index (PRange lo (Some u)) (scal_Z n) start
  = if (lower0 lo + Z.of_nat start <=? n) && (n <? u)
    then Val (n - lower0 lo) else Exn ValueError.
Proof.
  intros lo u n start. unfold scal_Z. cbn [p_index p_getitem].
  unfold range_is_empty. destruct (Z.leb_spec u (lower0 lo)) as [E|E].
  - cbn [rbind p_contains]. rewrite range_contains_int.
    destruct (Z.leb_spec (lower0 lo) n), (Z.ltb_spec n u),
      (Z.leb_spec (lower0 lo + Z.of_nat start) n); simpl; try lia; reflexivity.
  - set (len := Z.max 0 (u - lower0 lo)).
    destruct (Z.leb_spec (- len) (Z.of_nat start)) as [_|C]; [|lia].
    destruct (Z.leb_spec len len) as [_|C]; [|lia].
    cbn [andb rbind]. unfold range_py_slice, mk_range. fold len.
    cbn [p_contains rbind]. rewrite range_contains_int. cbn [lower0].
    rewrite scalar_int_str, to_number_str, num_eqb_NI, Z.eqb_refl.
    unfold clamp_bound.
    destruct (Z.ltb_spec (Z.of_nat start) 0); [lia|].
    destruct (Z.ltb_spec len 0); [lia|].
    assert (len = u - lower0 lo) by (subst len; lia).
    rewrite H1 in *. clear len H1.
    match goal with |- (if ?b then _ else _) = (if ?c then _ else _) =>
      replace b with c; [destruct c; reflexivity|] end.
    apply eq_true_iff_eq. rewrite !andb_true_iff, !Z.leb_le, !Z.ltb_lt. lia.
Qed.

Lemma range_find_list : forall fmt lo u l n, elems (PRange lo (Some u)) l ->
  run_op fmt "@?" [PRange lo (Some u); scal_Z n]
  = run_op fmt "@?" [PList l; scal_Z n].
Proof.
  intros fmt lo u l n H. run_plain. unfold op_FIND.
  cbn [is_scalar_or_range]. unfold scal_Z at 1. cbn [each_item]. fold (scal_Z n).
  unfold find1. unfold scal_Z at 1. cbn [is_scalar is_iterable andb orb].
  fold (scal_Z n). rewrite range_p_index.
  destruct (find_spec fmt (PList l) (scal_Z n) eq_refl eq_refl)
    as [(k & -> & H1 & H2)|(-> & H1)]; cbn [item_at] in *;
    rewrite (range_elems _ _ _ H) in *; rewrite Z.add_0_r.
  - rewrite nth_error_map in H1. unfold range_ints in H1.
    destruct (nth_error (zseq (lower0 lo) u) k) as [z|] eqn:E; [|discriminate].
    injection H1 as H1. apply str_of_Z_inj in H1. subst z.
    assert (Hk : (k < Z.to_nat (u - lower0 lo))%nat).
    { rewrite <- zseq_length. apply nth_error_Some. congruence. }
    rewrite zseq_nth in E by exact Hk. injection E as <-.
    destruct (Z.leb_spec (lower0 lo) (lower0 lo + Z.of_nat k)),
      (Z.ltb_spec (lower0 lo + Z.of_nat k) u); try lia.
    cbn [andb]. replace (lower0 lo + Z.of_nat k - lower0 lo) with (Z.of_nat k) by lia.
    reflexivity.
  - destruct (Z.leb_spec (lower0 lo) n), (Z.ltb_spec n u); try reflexivity.
    exfalso. apply (H1 (Z.to_nat (n - lower0 lo))).
    unfold range_ints. rewrite nth_error_map, zseq_nth by lia. cbn [option_map].
    replace (lower0 lo + Z.of_nat (Z.to_nat (n - lower0 lo))) with n by lia.
    reflexivity.
Qed.

Lemma sorted_single : forall ps k,
  StronglySorted lt ps -> (forall i, In i ps <-> i = k) -> ps = [k].
Proof.
  intros [|a [|b ps]] k S1 H.
  - exfalso. apply (proj2 (H k) eq_refl).
  - f_equal. apply H. left. reflexivity.
  - exfalso. inversion S1 as [|? ? ? F]; subst. inversion F; subst.
    assert (a = k) by (apply H; left; reflexivity).
    assert (b = k) by (apply H; right; left; reflexivity). lia.
Qed.

Lemma range_find_all_list : forall fmt lo u l n, elems (PRange lo (Some u)) l ->
  run_op fmt "@*" [PRange lo (Some u); scal_Z n]
  = run_op fmt "@*" [PList l; scal_Z n].
Proof.
  intros fmt lo u l n H. run_plain. unfold op_FINDALL.
  cbn [is_scalar_or_range]. unfold scal_Z at 1. cbn [each_item]. fold (scal_Z n).
  unfold find_all1. unfold scal_Z at 1. cbn [is_scalar is_iterable andb orb].
  fold (scal_Z n).
  destruct (find_all_spec fmt (PList l) (scal_Z n) eq_refl eq_refl)
    as (ps & -> & S1 & M). cbn [item_at] in M.
  rewrite (range_elems _ _ _ H) in M.
  assert (M' : forall i, In i ps <-> lower0 lo + Z.of_nat i = n /\ n < u).
  { intro i. rewrite M, nth_error_map. unfold range_ints. split.
    - intro Hi. destruct (nth_error (zseq (lower0 lo) u) i) as [z|] eqn:E; [|discriminate].
      injection Hi as Hi. apply str_of_Z_inj in Hi. subst z.
      assert (Hk : (i < Z.to_nat (u - lower0 lo))%nat).
      { rewrite <- zseq_length. apply nth_error_Some. congruence. }
      rewrite zseq_nth in E by exact Hk. injection E as <-. lia.
    - intros [Hi Hu]. rewrite zseq_nth by lia. cbn [option_map].
      rewrite Hi. reflexivity. }
  destruct (find_fuel (PRange lo (Some u))) as [|f] eqn:Ef;
    [unfold find_fuel, p_len, range_len in Ef; lia|].
  destruct f as [|f]; [unfold find_fuel, p_len, range_len in Ef; lia|].
  cbn [find_all_from]. rewrite range_p_index.
  destruct (Z.leb_spec (lower0 lo + Z.of_nat 0) n), (Z.ltb_spec n u); cbn [andb].
  2-4: rewrite bind_ret; destruct ps as [|i ps]; [reflexivity|];
       exfalso; specialize (M' i); simpl in M'; destruct M' as [M' _];
       destruct M' as [M1 M2]; [left; reflexivity|]; lia.
  rewrite range_p_index.
  destruct (Z.leb_spec (lower0 lo + Z.of_nat (S (Z.to_nat (n - lower0 lo)))) n); [lia|].
  cbn [andb]. rewrite !bind_ret.
  rewrite (sorted_single ps (Z.to_nat (n - lower0 lo))); [|exact S1|].
  - cbn [map]. rewrite Z2Nat.id by lia. reflexivity.
  - intro i. rewrite M'. lia.
Qed.
