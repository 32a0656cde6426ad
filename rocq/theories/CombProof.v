(** * Proofs for zip, Cartesian product, combinations and permutations *)

From Coq Require Import String List NArith ZArith Bool Arith Lia Sorted Permutation.
From Verif Require Import PyStr PyRe PyNum Tokens OpFun OpTable Unparse PTypes
                          Ops OpsSeq Apply StrFacts NumFacts NumCmp Spec SpecRun SpecList
                          PFacts RunOp SeqProof SeqProof2 ListProof.
Import ListNotations.
Local Open Scope string_scope.
Local Open Scope list_scope.
Local Open Scope Z_scope.

(** ** C26 *)

Lemma sequence_iterable : forall vs, Forall sequence vs -> forallb is_iterable vs = true.
Proof.
  intros vs F. induction F as [|v vs H _ IH]; [reflexivity|].
  simpl. rewrite IH. destruct v; try destruct H; reflexivity.
Qed.

Lemma sequence_cases : forall v, sequence v ->
  (exists lo, v = PRange lo None) \/ exists l, elems v l /\ infinite v = false
    /\ forall n, iter_upto n v = l.
Proof.
  intros v H. destruct v as [s|r g|l|lo [u|]|st r|]; try destruct H.
  - right. eexists. split; [constructor|]. split; reflexivity.
  - right. eexists. split; [constructor|]. split; reflexivity.
  - right. exists (map scal_Z (range_ints lo u)). split; [apply elems_range_ints|]. split; reflexivity.
  - left. exists lo. reflexivity.
Qed.

Definition finite_length (v : pval) (n : nat) : Prop := exists l, elems v l /\ length l = n.

Lemma zip_rounds_spec : forall vs, Forall sequence vs ->
  (forall v, In v vs -> exists lo, v = PRange lo None) /\ zip_rounds vs = None
  \/ exists n, zip_rounds vs = Some n
       /\ (exists v, In v vs /\ finite_length v n)
       /\ (forall v m, In v vs -> finite_length v m -> (n <= m)%nat).
Proof.
  intros vs F. induction F as [|v vs H F IH].
  - left. split; [intros v []|reflexivity].
  - cbn [zip_rounds fold_right]. fold (zip_rounds vs).
    destruct (sequence_cases v H) as [[lo ->]|(l & E & I & U)].
    + change (infinite (PRange lo None)) with true. cbv iota.
      destruct IH as [[A N]|(n & N & (w & Hw & L) & M)].
      * left. split; [|exact N]. intros w [<-|Hw]; [exists lo; reflexivity|apply A, Hw].
      * right. exists n. split; [exact N|]. split; [exists w; split; [right; exact Hw|exact L]|].
        intros w' m [<-|Hw'] Hm; [|apply (M w' m Hw' Hm)].
        destruct Hm as (l & E & _). inversion E.
    + rewrite I, U. right.
      destruct IH as [[A N]|(n & N & (w & Hw & L) & M)]; rewrite N.
      * exists (length l). split; [reflexivity|].
        split; [exists v; split; [left; reflexivity|exists l; auto]|].
        intros w m [<-|Hw] (l' & E' & L'); [rewrite (elems_det _ _ _ E E'); lia|].
        destruct (A w Hw) as [lo ->]. inversion E'.
      * exists (Nat.min (length l) n). split; [reflexivity|]. split.
        -- destruct (le_lt_dec (length l) n) as [Hl|Hl].
           ++ exists v. split; [left; reflexivity|]. exists l. split; [exact E|lia].
           ++ exists w. split; [right; exact Hw|]. replace (Nat.min (length l) n) with n by lia. exact L.
        -- intros w' m [<-|Hw'] Hm; [|pose proof (M w' m Hw' Hm); lia].
           destruct Hm as (l' & E' & L'). rewrite (elems_det _ _ _ E E') in *. lia.
Qed.

Lemma iter_upto_item : forall v n i, sequence v -> (i < n)%nat ->
  (forall m, finite_length v m -> (n <= m)%nat) ->
  item_of v i (nth i (iter_upto n v) PNil).
Proof.
  intros v n i H Hi Hm. destruct (sequence_cases v H) as [[lo ->]|(l & E & I & U)].
  - cbn [item_of iter_upto].
    apply nth_error_nth. rewrite nth_error_map, nth_error_seq0 by exact Hi. reflexivity.
  - rewrite U. assert (L : (n <= length l)%nat) by (apply Hm; exists l; auto).
    assert (X : exists l', elems v l' /\ nth_error l' i = Some (nth i l PNil)).
    { exists l. split; [exact E|]. apply nth_error_nth'. lia. }
    destruct v as [s|r g|l'|lo [u|]|st r|]; try exact X. inversion E.
Qed.

Lemma nth_error_transpose : forall n cols fill i row,
  nth_error (transpose n cols fill) i = Some row ->
  (i < n)%nat /\ row = map (fun col => nth i col fill) cols.
Proof.
  intros n cols fill i row H. unfold transpose in H.
  assert (L : (i < n)%nat).
  { assert (X : (i < length (map (fun i => map (fun col => nth i col fill) cols) (seq 0 n)))%nat)
      by (apply nth_error_Some; congruence). rewrite map_length, seq_length in X. exact X. }
  split; [exact L|]. rewrite nth_error_map, nth_error_seq0 in H by exact L. simpl in H. congruence.
Qed.

Lemma zip_op : forall fmt vs, Forall sequence vs -> Exists (fun v => exists n, finite_length v n) vs ->
  exists rows, run_op fmt "Z" [PList vs] = ret (PList (map PList rows))
    /\ (exists v, In v vs /\ finite_length v (length rows))
    /\ (forall v n, In v vs -> finite_length v n -> (length rows <= n)%nat)
    /\ (forall i row, nth_error rows i = Some row -> Forall2 (fun v x => item_of v i x) vs row).
Proof.
  intros fmt vs F X. apply Exists_exists in X. destruct X as (v0 & I0 & n0 & L0).
  destruct (zip_rounds_spec vs F) as [[A N]|(n & N & W & M)].
  { destruct (A v0 I0) as [lo ->]. destruct L0 as (l & E & _). inversion E. }
  exists (transpose n (map (iter_upto n) vs) PNil).
  assert (TL : length (transpose n (map (iter_upto n) vs) PNil) = n).
  { unfold transpose. rewrite map_length, seq_length. reflexivity. }
  rewrite TL. split; [|split; [exact W|split; [exact M|]]].
  - run_plain. unfold op_ZIP1. cbn [is_iterable p_iter]. rewrite bind_lift_val.
    unfold zip_lists. rewrite (sequence_iterable vs F), N. destruct vs; [destruct I0|reflexivity].
  - intros i row H. apply nth_error_transpose in H. destruct H as [Hi ->].
    rewrite map_map. clear N W TL I0 L0.
    induction F as [|v vs Hv F IH]; [constructor|]. cbn [map]. constructor.
    + apply iter_upto_item; [exact Hv|exact Hi|]. intros m Hm. apply (M v m); [left; reflexivity|exact Hm].
    + apply IH. intros w m Hw Hm. apply (M w m); [right; exact Hw|exact Hm].
Qed.

Lemma zip_longest_spec : forall vs ls fill, Forall2 elems vs ls ->
  zip_longest vs fill
  = ret (transpose (fold_right (fun l m => Nat.max (length l) m) O ls) ls fill).
Proof.
  intros vs ls fill H. unfold zip_longest.
  assert (M : mapR p_iter vs = Val ls).
  { apply mapR_Forall2. induction H; constructor; [apply elems_p_iter; assumption|assumption]. }
  rewrite M, bind_lift_val. reflexivity.
Qed.

Lemma max_length : forall {A} (ls : list (list A)),
  (forall l, In l ls -> (length l <= fold_right (fun l m => Nat.max (length l) m) O ls)%nat)
  /\ (ls <> [] -> exists l, In l ls /\ length l = fold_right (fun l m => Nat.max (length l) m) O ls).
Proof.
  intros A ls. induction ls as [|l ls [I1 I2]]; [split; [intros l []|contradiction]|].
  cbn [fold_right]. split.
  - intros x [<-|Hx]; [lia|]. specialize (I1 x Hx). lia.
  - intros _. destruct ls as [|l' ls].
    + exists l. split; [left; reflexivity|]. simpl. lia.
    + destruct I2 as (x & Hx & E); [discriminate|].
      destruct (le_lt_dec (length x) (length l)).
      * exists l. split; [left; reflexivity|]. lia.
      * exists x. split; [right; exact Hx|]. lia.
Qed.

Lemma zip_default_op : forall fmt vs ls d, vs <> [] -> Forall2 elems vs ls ->
  (forall args fill, args = [PList vs] /\ fill = PScal [] \/ args = [PList vs; d] /\ fill = d /\ is_block d = false ->
   exists rows, run_op fmt "ZD" args = ret (PList (map PList rows))
    /\ (exists l, In l ls /\ length rows = length l)
    /\ (forall l, In l ls -> (length l <= length rows)%nat)
    /\ (forall i row, nth_error rows i = Some row ->
          Forall2 (fun l x => nth_error l i = Some x \/ (length l <= i)%nat /\ x = fill) ls row)).
Proof.
  intros fmt vs ls d NE F args fill HA.
  set (n := fold_right (fun l m => Nat.max (length l) m) O ls).
  exists (transpose n ls fill).
  assert (TL : length (transpose n ls fill) = n).
  { unfold transpose. rewrite map_length, seq_length. reflexivity. }
  assert (It : forallb is_iterable vs = true).
  { clear - F. induction F; [reflexivity|]. simpl. rewrite IHF, (elems_iterable _ _ H). reflexivity. }
  assert (LNE : ls <> []) by (destruct F; [contradiction|discriminate]).
  destruct (max_length ls) as [M1 M2]. rewrite TL. split; [|split; [|split; [exact M1|]]].
  - destruct HA as [[-> ->]|(-> & -> & Ib)]; run_plain;
      try (rewrite Ib; reflexivity); try (destruct d; reflexivity);
      unfold op_ZIPDEFAULT; cbn [is_iterable p_iter]; rewrite bind_lift_val, It;
      rewrite (zip_longest_spec vs ls _ F), bind_ret; reflexivity.
  - destruct (M2 LNE) as (l & Hl & E). exists l. split; [exact Hl|symmetry; exact E].
  - intros i row H. apply nth_error_transpose in H. destruct H as [Hi ->].
    clear. induction ls as [|l ls IH]; constructor; [|exact IH].
    destruct (le_lt_dec (length l) i) as [L|L].
    + right. split; [exact L|]. apply nth_overflow, L.
    + left. apply nth_error_nth', L.
Qed.

Lemma nth_error_same : forall {A} (l r : list A),
  (forall i, nth_error l i = nth_error r i) -> l = r.
Proof.
  intros A l. induction l as [|x l IH]; intros [|y r] H; [reflexivity|specialize (H O); discriminate..|].
  f_equal; [specialize (H O); simpl in H; congruence|]. apply IH. intro i. apply (H (S i)).
Qed.

Lemma transpose_twice : forall n cols, Forall (fun c : list pval => length c = n) cols ->
  transpose (length cols) (transpose n cols PNil) PNil = cols.
Proof.
  intros n cols F. apply nth_error_same. intro j.
  destruct (le_lt_dec (length cols) j) as [L|L].
  - rewrite (proj2 (nth_error_None cols j) L). apply nth_error_None.
    unfold transpose. rewrite map_length, seq_length. exact L.
  - unfold transpose at 1. rewrite nth_error_map, nth_error_seq0 by exact L. cbn [option_map].
    destruct (nth_error cols j) as [c|] eqn:E; [|apply nth_error_None in E; lia].
    f_equal. rewrite Forall_forall in F. pose proof (F c (nth_error_In _ _ E)) as Lc.
    unfold transpose. rewrite map_map. apply nth_error_same. intro i. rewrite nth_error_map.
    destruct (le_lt_dec n i) as [Li|Li].
    + rewrite (proj2 (nth_error_None (seq 0 n) i)) by (rewrite seq_length; exact Li).
      symmetry. apply nth_error_None. lia.
    + rewrite nth_error_seq0 by exact Li. cbn [option_map].
      rewrite (nth_error_nth' c PNil) by lia. f_equal.
      apply nth_error_nth. rewrite nth_error_map, E. reflexivity.
Qed.

Lemma zip_rounds_rect : forall vs ls n, vs <> [] -> Forall2 elems vs ls ->
  Forall (fun c : list pval => length c = n) ls -> zip_rounds vs = Some n
  /\ map (iter_upto n) vs = ls /\ Forall sequence vs.
Proof.
  intros vs ls n NE F R.
  assert (S : Forall sequence vs) by (clear - F; induction F; constructor; [destruct H; exact I|assumption]).
  split; [|split; [|exact S]].
  - destruct (zip_rounds_spec vs S) as [[A N]|(m & N & (v & Iv & l & E & L) & _)].
    + destruct F as [|v l vs ls E F]; [contradiction|].
      destruct (A v (or_introl eq_refl)) as [lo ->]. inversion E.
    + rewrite N. f_equal. rewrite <- L.
      assert (In l ls).
      { clear - F Iv E. induction F as [|w k vs ls Ew F IH]; [destruct Iv|].
        destruct Iv as [->|Iv]; [left; eapply elems_det; eassumption|right; auto]. }
      rewrite Forall_forall in R. auto.
  - clear R NE. induction F as [|v l vs ls E F IH]; [reflexivity|]. inversion S; subst. cbn [map].
    destruct (sequence_cases v) as [[lo ->]|(l' & E' & _ & U)]; [assumption|inversion E|].
    rewrite U, (elems_det _ _ _ E' E), IH by assumption. reflexivity.
Qed.

Lemma zip_twice : forall fmt vs ls n, vs <> [] -> Forall2 elems vs ls ->
  Forall (fun c : list pval => length c = n) ls -> (0 < n)%nat ->
  exists w, run_op fmt "Z" [PList vs] = ret w /\ run_op fmt "Z" [w] = ret (PList (map PList ls)).
Proof.
  intros fmt vs ls n NE F R Hn.
  destruct (zip_rounds_rect vs ls n NE F R) as (N & I & S).
  exists (PList (map PList (transpose n ls PNil))). split.
  - run_plain. unfold op_ZIP1. cbn [is_iterable p_iter]. rewrite bind_lift_val.
    unfold zip_lists. rewrite (sequence_iterable vs S), N, I. destruct vs; [contradiction|reflexivity].
  - assert (F' : Forall2 elems (map PList (transpose n ls PNil)) (transpose n ls PNil)).
    { generalize (transpose n ls PNil). intro q. induction q; constructor; [constructor|assumption]. }
    assert (R' : Forall (fun c : list pval => length c = length ls) (transpose n ls PNil)).
    { apply Forall_forall. intros c Hc. unfold transpose in Hc. apply in_map_iff in Hc.
      destruct Hc as (i & <- & _). apply map_length. }
    assert (NE' : map PList (transpose n ls PNil) <> []).
    { unfold transpose. destruct n; [lia|]. discriminate. }
    destruct (zip_rounds_rect _ _ _ NE' F' R') as (N' & I' & S').
    run_plain. unfold op_ZIP1. cbn [is_iterable p_iter]. rewrite bind_lift_val.
    unfold zip_lists. rewrite (sequence_iterable _ S'), N', I', transpose_twice by exact R.
    destruct (map PList (transpose n ls PNil)); [contradiction|reflexivity].
Qed.

(** ** C27 *)

Lemma sorted_app : forall {A} (R : A -> A -> Prop) l m, StronglySorted R l -> StronglySorted R m ->
  (forall x y, In x l -> In y m -> R x y) -> StronglySorted R (l ++ m).
Proof.
  intros A R l m Sl Sm H. induction Sl as [|x l Sl IH F]; [exact Sm|].
  simpl. constructor.
  - apply IH. intros a b Ha Hb. apply H; [right; exact Ha|exact Hb].
  - apply Forall_app. split; [exact F|]. apply Forall_forall. intros y Hy.
    apply H; [left; reflexivity|exact Hy].
Qed.

Lemma sorted_cons_map : forall i P, StronglySorted pos_lt P -> StronglySorted pos_lt (map (cons i) P).
Proof.
  intros i P S. induction S as [|p P S IH F]; simpl; constructor; [exact IH|].
  rewrite Forall_map. eapply Forall_impl; [|exact F]. intros q Hq. apply pos_later, Hq.
Qed.

Lemma sorted_blocks : forall k (P : nat -> list (list nat)) is_, StronglySorted lt is_ ->
  (forall i, In i is_ -> StronglySorted pos_lt (P i)) ->
  (forall i p, In i is_ -> In p (P i) -> length p = k) ->
  StronglySorted pos_lt (concat (map (fun i => map (cons i) (P i)) is_)).
Proof.
  intros k P is_ S HS HL. induction S as [|i is_ S IH F]; [constructor|].
  cbn [map concat]. apply sorted_app.
  - apply sorted_cons_map, HS. left. reflexivity.
  - apply IH; intros; [apply HS|eapply HL]; try right; eauto.
  - intros x y Hx Hy. apply in_map_iff in Hx. destruct Hx as (p & <- & Hp).
    apply in_concat in Hy. destruct Hy as (b & Hb & Hy). apply in_map_iff in Hb.
    destruct Hb as (j & <- & Hj). apply in_map_iff in Hy. destruct Hy as (q & <- & Hq).
    constructor; [rewrite Forall_forall in F; apply F, Hj|].
    rewrite (HL i p), (HL j q); auto; [right; exact Hj|left; reflexivity].
Qed.

Lemma sorted_seq : forall n a, StronglySorted lt (seq a n).
Proof.
  induction n as [|n IH]; intro a; constructor; [apply IH|].
  apply Forall_forall. intros x Hx. apply in_seq in Hx. lia.
Qed.

(** Relations carried through the enumerations. *)
Lemma Forall2_app' : forall {A B} (R : A -> B -> Prop) a b c d,
  Forall2 R a b -> Forall2 R c d -> Forall2 R (a ++ c) (b ++ d).
Proof. intros. apply Forall2_app; assumption. Qed.

Lemma Forall2_concat : forall {A B} (R : A -> B -> Prop) a b,
  Forall2 (Forall2 R) a b -> Forall2 R (concat a) (concat b).
Proof. intros A B R a b H. induction H; [constructor|]. simpl. apply Forall2_app; assumption. Qed.

Lemma Forall2_map2 : forall {A B C D} (R : A -> B -> Prop) (Q : C -> D -> Prop) f g a b,
  (forall x y, R x y -> Q (f x) (g y)) -> Forall2 R a b -> Forall2 Q (map f a) (map g b).
Proof. intros A B C D R Q f g a b H F. induction F; simpl; constructor; auto. Qed.

Lemma items_at_seq : forall {A} (l : list A),
  Forall2 (fun i x => nth_error l i = Some x) (seq 0 (length l)) l.
Proof.
  intros A l. assert (H : forall m pre, length pre = m ->
    Forall2 (fun i x => nth_error (pre ++ l) i = Some x) (seq m (length l)) l).
  { induction l as [|x l IH]; intros m pre L; [constructor|]. cbn [length seq]. constructor.
    - rewrite nth_error_app2, L, Nat.sub_diag by lia. reflexivity.
    - specialize (IH (S m) (pre ++ [x])). rewrite <- app_assoc in IH. apply IH.
      rewrite app_length. simpl. lia. }
  apply (H O [] eq_refl).
Qed.

Lemma product_choice : forall {A} (ls : list (list A)),
  Forall2 (choice ls) (product (map (fun l => seq 0 (length l)) ls)) (product ls).
Proof.
  intros A ls. induction ls as [|l ls IH].
  - cbn. constructor; [constructor|constructor].
  - cbn [map product]. apply Forall2_concat.
    eapply Forall2_map2; [|apply items_at_seq]. intros i x Hx. cbv beta in Hx.
    eapply Forall2_map2; [|exact IH]. intros p r Hp. constructor; assumption.
Qed.

Lemma product_In : forall {A} (ls : list (list A)) p,
  In p (product ls) <-> Forall2 (fun l x => In x l) ls p.
Proof.
  intros A ls. induction ls as [|l ls IH]; intro p; cbn [product].
  - simpl. split; [intros [<-|[]]; constructor|]. intro H. inversion H. auto.
  - rewrite in_concat. split.
    + intros (b & Hb & Hp). apply in_map_iff in Hb. destruct Hb as (x & <- & Hx).
      apply in_map_iff in Hp. destruct Hp as (q & <- & Hq). constructor; [exact Hx|]. apply IH, Hq.
    + intro H. inversion H as [|? x ? q Hx Hq]; subst.
      exists (map (cons x) (product ls)). split; [apply in_map_iff; exists x; auto|].
      apply in_map, IH, Hq.
Qed.

Lemma product_length : forall {A} (ls : list (list A)),
  length (product ls) = fold_right Nat.mul 1%nat (map (@length A) ls).
Proof.
  intros A ls. induction ls as [|l ls IH]; [reflexivity|]. cbn [product map fold_right].
  rewrite <- IH. generalize (product ls). clear. intro P.
  induction l as [|x l IH]; [reflexivity|]. cbn [map concat length].
  rewrite app_length, map_length, IH. reflexivity.
Qed.

Lemma product_lengths : forall {A} (ls : list (list A)) p, In p (product ls) -> length p = length ls.
Proof. intros A ls p H. apply product_In in H. symmetry. eapply Forall2_length, H. Qed.

Lemma product_sorted : forall (ns : list nat),
  StronglySorted pos_lt (product (map (fun n => seq 0 n) ns)).
Proof.
  induction ns as [|n ns IH]; [constructor; constructor|]. cbn [map product].
  apply (sorted_blocks (length ns) (fun _ => product (map (fun n => seq 0 n) ns))).
  - apply sorted_seq.
  - intros. exact IH.
  - intros i p _ Hp. apply product_lengths in Hp. rewrite map_length in Hp. exact Hp.
Qed.

Lemma cartesian_op : forall fmt vs ls, Forall2 elems vs ls ->
  exists rows ixs, run_op fmt "CP" [PList vs] = ret (PList (map PList rows))
    /\ StronglySorted pos_lt ixs
    /\ (forall ix, In ix ixs <-> Forall2 (fun l i => (i < length l)%nat) ls ix)
    /\ Forall2 (choice ls) ixs rows
    /\ length rows = fold_right Nat.mul 1%nat (map (@length pval) ls).
Proof.
  intros fmt vs ls F. exists (product ls), (product (map (fun l => seq 0 (length l)) ls)).
  assert (It : forallb is_iterable vs = true).
  { clear - F. induction F; [reflexivity|]. simpl. rewrite IHF, (elems_iterable _ _ H). reflexivity. }
  split; [|split; [|split; [|split; [apply product_choice|apply product_length]]]].
  - run_plain. unfold op_CARTESIANPRODUCT1. cbn [is_iterable p_iter]. rewrite bind_lift_val.
    unfold cartesian. rewrite It, (mapM_lift_list _ _ F), bind_ret. reflexivity.
  - pose proof (product_sorted (map (@length pval) ls)) as S. rewrite map_map in S. exact S.
  - intro ix. rewrite product_In. clear. revert ix. induction ls as [|l ls IH]; intro ix.
    + split; intro H; inversion H; constructor.
    + split; intro H; inversion H as [|? i ? q Hi Hq]; subst; constructor.
      * apply in_seq in Hi. lia.
      * apply IH, Hq.
      * apply in_seq. lia.
      * apply IH, Hq.
Qed.

Lemma cartesian2_op : forall fmt a b, is_block a = false -> is_block b = false ->
  run_op fmt "CP" [a; b] = run_op fmt "CP" [PList [a; b]].
Proof.
  intros fmt a b Ha Hb. transitivity (cartesian [a; b]).
  - run_plain; [reflexivity|rewrite Ha, Hb; reflexivity|destruct a, b; reflexivity].
  - symmetry. run_plain. unfold op_CARTESIANPRODUCT1. cbn [is_iterable p_iter].
    rewrite bind_lift_val. reflexivity.
Qed.

(** Combinations. *)
Lemma combinations_rel : forall {A B} (R : A -> B -> Prop) l m, Forall2 R l m -> forall k,
  Forall2 (Forall2 R) (combinations l k) (combinations m k).
Proof.
  intros A B R l m H. induction H as [|x y l m Hxy H IH]; intro k.
  - destruct k; cbn; repeat constructor.
  - destruct k as [|k]; cbn [combinations]; [repeat constructor|].
    apply Forall2_app; [|apply IH]. eapply Forall2_map2; [|apply IH].
    intros p q Hpq. constructor; assumption.
Qed.

Lemma combinations_seq_In : forall n a k c,
  In c (combinations (seq a n) k) <->
  length c = k /\ StronglySorted lt c /\ Forall (fun i => a <= i < a + n)%nat c.
Proof.
  induction n as [|n IH]; intros a k c.
  - destruct k; cbn; split.
    + intros [<-|[]]. repeat constructor.
    + intros (L & _ & _). destruct c; [auto|discriminate].
    + intros [].
    + intros (L & _ & F). destruct c as [|i c]; [discriminate|]. inversion F; subst. lia.
  - cbn [seq]. destruct k as [|k]; cbn [combinations].
    + split; [intros [<-|[]]; repeat constructor|]. intros (L & _ & _). destruct c; [left; auto|discriminate].
    + rewrite in_app_iff, in_map_iff, IH. split.
      * intros [(q & <- & Hq)|(L & S & F)].
        -- apply IH in Hq. destruct Hq as (L & S & F). split; [simpl; congruence|].
           split; [constructor; [exact S|]|constructor; [lia|]]; eapply Forall_impl; try exact F;
             intros i Hi; cbv beta in *; lia.
        -- split; [exact L|]. split; [exact S|]. eapply Forall_impl; [|exact F]. intros i Hi. cbv beta in *. lia.
      * intros (L & S & F). destruct c as [|i c]; [discriminate|]. inversion S as [|? ? S' G]; subst.
        inversion F as [|? ? Hi F']; subst.
        destruct (Nat.eq_dec i a) as [->|Hne].
        -- left. exists c. split; [reflexivity|]. apply IH. split; [simpl in L; congruence|].
           split; [exact S'|]. rewrite Forall_forall in *. intros j Hj.
           specialize (G j Hj). specialize (F' j Hj). lia.
        -- right. split; [exact L|]. split; [exact S|]. constructor; [lia|].
           rewrite Forall_forall in *. intros j Hj. specialize (G j Hj). specialize (F' j Hj). lia.
Qed.

Lemma combinations_sorted : forall n a k, StronglySorted pos_lt (combinations (seq a n) k).
Proof.
  induction n as [|n IH]; intros a k.
  - destruct k; cbn; repeat constructor.
  - cbn [seq]. destruct k as [|k]; cbn [combinations]; [repeat constructor|].
    apply sorted_app; [apply sorted_cons_map, IH|apply IH|].
    intros x y Hx Hy. apply in_map_iff in Hx. destruct Hx as (q & <- & Hq).
    apply combinations_seq_In in Hq, Hy. destruct Hq as (L1 & _ & _). destruct Hy as (L2 & _ & F).
    destruct y as [|j y]; [discriminate|]. inversion F; subst. simpl in L2. constructor; lia.
Qed.

Lemma combinations_length : forall {A} (l : list A) k,
  length (combinations l k) = binomial (length l) k.
Proof.
  intros A l. induction l as [|x l IH]; intro k; destruct k as [|k]; try reflexivity.
  cbn [combinations length binomial]. rewrite app_length, map_length, !IH. reflexivity.
Qed.

(** Turning the rows of an enumeration into values of the kind of [v]. *)
Lemma rows_join : forall (s : str) rows pss, Forall2 (items_at (chars s)) pss rows ->
  exists ts, rows = map chars ts.
Proof.
  intros s rows pss F. induction F as [|ps r pss rows H F IH]; [exists []; reflexivity|].
  destruct IH as [ts ->]. destruct (singles_chars r) as [t ->].
  - intros x Hx. apply (proj1 (items_at_in _ _ _ H x)) in Hx. destruct Hx as (i & _ & E).
    unfold chars in E. rewrite nth_error_map in E. destruct (nth_error s i) as [c|]; [|discriminate].
    injection E as <-. exists c. reflexivity.
  - exists (t :: ts). reflexivity.
Qed.

Lemma rows_values : forall v l rows pss, elems v l -> Forall2 (items_at l) pss rows ->
  exists cs,
    (if is_scalar v then do r <- mapM (join_list None) rows; ret (PList r)
     else ret (PList (map PList rows))) = ret (PList cs)
    /\ Forall2 elems cs rows.
Proof.
  intros v l rows pss E F. destruct (is_scalar v) eqn:S.
  - destruct v as [s| | | | |]; try discriminate. inversion E; subst. fold (chars s) in F.
    destruct (rows_join s rows pss F) as [ts ->]. exists (map PScal ts). split.
    + rewrite (mapM_rel _ _ (map PScal ts)), bind_ret; [reflexivity|].
      clear. induction ts; constructor; [apply join_chars|assumption].
    + clear. induction ts; constructor; [constructor|assumption].
  - exists (map PList rows). split; [reflexivity|]. clear. induction rows; constructor; [constructor|assumption].
Qed.

Lemma combinations_op : forall fmt v l k, elems v l -> 0 <= k ->
  exists cs rows, run_op fmt "CB" [v; scal_Z k] = ret (PList cs)
    /\ Forall2 elems cs rows
    /\ selections (fun ps => Z.of_nat (length ps) = k /\ StronglySorted lt ps
                             /\ Forall (fun i => (i < length l)%nat) ps) l rows
    /\ length rows = binomial (length l) (Z.to_nat k).
Proof.
  intros fmt v l k E Hk.
  assert (Ib : is_block v = false) by (eapply elems_not_block, E).
  pose proof (combinations_rel _ _ _ (items_at_seq l) (Z.to_nat k)) as F.
  destruct (rows_values v l _ _ E F) as (cs & R & G).
  exists cs, (combinations l (Z.to_nat k)). split; [|split; [exact G|split]].
  - run_plain; [|rewrite Ib; reflexivity|destruct v; reflexivity].
    unfold op_COMBINATIONS, scal_Z. rewrite (elems_iterable _ _ E), (p_list_elems _ _ E), bind_lift_val.
    rewrite scalar_int_str. replace (k <? 0) with false by lia. exact R.
  - exists (combinations (seq 0 (length l)) (Z.to_nat k)).
    split; [apply combinations_sorted|]. split; [|exact F].
    intro ps. rewrite combinations_seq_In. split; intros (L & S & B); (split; [lia|]; split; [exact S|]);
      (eapply Forall_impl; [|exact B]); intros i Hi; cbv beta in *; lia.
  - apply combinations_length.
Qed.

(** Permutations. *)
Lemma picks_rel : forall {A B} (R : A -> B -> Prop) l m, Forall2 R l m ->
  Forall2 (fun p q => R (fst p) (fst q) /\ Forall2 R (snd p) (snd q)) (picks l) (picks m).
Proof.
  intros A B R l m H. induction H as [|x y l m Hxy H IH]; [constructor|].
  cbn [picks]. constructor; [split; assumption|].
  eapply Forall2_map2; [|exact IH]. intros p q [H1 H2]. cbn [fst snd]. split; [exact H1|].
  constructor; assumption.
Qed.

Lemma permutations_rel : forall {A B} (R : A -> B -> Prop) n l m, Forall2 R l m ->
  Forall2 (Forall2 R) (permutations n l) (permutations n m).
Proof.
  intros A B R n. induction n as [|n IH]; intros l m H; [cbn; repeat constructor|].
  cbn [permutations]. apply Forall2_concat. eapply Forall2_map2; [|apply picks_rel, H].
  intros p q [H1 H2]. eapply Forall2_map2; [|apply IH, H2]. intros a b Hab. constructor; assumption.
Qed.

Lemma picks_In : forall {A} (l : list A) x r,
  In (x, r) (picks l) -> Permutation (x :: r) l /\ length l = S (length r).
Proof.
  intros A l. induction l as [|y l IH]; intros x r; cbn [picks]; [intros []|].
  intros [H|H].
  - injection H as -> ->. split; [reflexivity|reflexivity].
  - apply in_map_iff in H. destruct H as ([x' r'] & E & H). cbn in E. injection E as <- <-.
    destruct (IH _ _ H) as [P L]. split; [|simpl; congruence].
    rewrite perm_swap. constructor. exact P.
Qed.

Lemma picks_complete : forall {A} (l : list A) x, In x l -> exists r, In (x, r) (picks l).
Proof.
  intros A l x. induction l as [|y l IH]; [intros []|]. cbn [picks]. intros [->|H].
  - exists l. left. reflexivity.
  - destruct (IH H) as [r Hr]. exists (y :: r). right. apply in_map_iff. exists (x, r). auto.
Qed.

Lemma picks_sorted : forall l, StronglySorted lt l ->
  map fst (picks l) = l /\ forall i r, In (i, r) (picks l) -> StronglySorted lt r.
Proof.
  intros l S. induction S as [|x l S [IH1 IH2] F]; [split; [reflexivity|intros ? ? []]|].
  cbn [picks map fst]. split.
  - rewrite map_map. cbn [fst]. f_equal. exact IH1.
  - intros i r [H|H].
    + injection H as <- <-. exact S.
    + apply in_map_iff in H. destruct H as ([i' r'] & E & H). cbn in E. injection E as <- <-.
      constructor; [eapply IH2, H|]. rewrite Forall_forall in *. intros j Hj. apply F.
      destruct (picks_In _ _ _ H) as [P _]. eapply Permutation_in; [exact P|]. right. exact Hj.
Qed.

Lemma permutations_In : forall {A} n (l c : list A), length l = n ->
  (In c (permutations n l) -> Permutation c l).
Proof.
  intros A n. induction n as [|n IH]; intros l c L H.
  - destruct l; [|discriminate]. destruct H as [<-|[]]. constructor.
  - cbn [permutations] in H. apply in_concat in H. destruct H as (b & Hb & Hc).
    apply in_map_iff in Hb. destruct Hb as ([x r] & <- & Hp). cbn in Hc.
    apply in_map_iff in Hc. destruct Hc as (q & <- & Hq).
    destruct (picks_In _ _ _ Hp) as [P E].
    apply IH in Hq; [|congruence]. rewrite Hq. exact P.
Qed.

Lemma permutations_complete : forall n (l c : list nat), length l = n -> NoDup l ->
  Permutation c l -> In c (permutations n l).
Proof.
  intros n. induction n as [|n IH]; intros l c L N P.
  - destruct l; [|discriminate]. apply Permutation_sym, Permutation_nil in P. subst. left. reflexivity.
  - destruct c as [|x c]; [apply Permutation_nil in P; subst; discriminate|].
    assert (I : In x l) by (eapply Permutation_in; [exact P|left; reflexivity]).
    destruct (picks_complete l x I) as [r Hr]. destruct (picks_In _ _ _ Hr) as [Q E].
    assert (PC : Permutation c r).
    { apply (Permutation_cons_inv (a := x)). rewrite P, Q. reflexivity. }
    cbn [permutations]. apply in_concat. exists (map (cons x) (permutations n r)). split.
    + apply in_map_iff. exists (x, r). auto.
    + apply in_map, IH; [congruence| |exact PC].
      apply Permutation_sym in Q. pose proof (Permutation_NoDup Q N) as ND. inversion ND; assumption.
Qed.

Lemma blocks_as_map : forall (f : nat * list nat -> list (list nat)) ps,
  exists P, (forall i r, In (i, r) ps -> NoDup (map fst ps) -> P i = f (i, r)).
Proof.
  intros f ps. exists (fun i => match find (fun p => Nat.eqb (fst p) i) ps with
                                | Some p => f p | None => [] end).
  intros i r I N. induction ps as [|[j q] ps IH]; [destruct I|]. cbn [find fst].
  cbn [map fst] in N. inversion N as [|? ? N1 N2]; subst.
  destruct I as [E|I].
  - injection E as -> ->. rewrite Nat.eqb_refl. reflexivity.
  - destruct (Nat.eqb j i) eqn:E; [|apply IH; assumption].
    apply Nat.eqb_eq in E. subst j. exfalso. apply N1. apply in_map_iff. exists (i, r). auto.
Qed.

Lemma sorted_NoDup : forall l, StronglySorted lt l -> NoDup l.
Proof.
  intros l S. induction S as [|x l S IH F]; constructor; [|exact IH].
  intro I. rewrite Forall_forall in F. specialize (F x I). lia.
Qed.

Lemma permutations_sorted : forall n l, length l = n -> StronglySorted lt l ->
  StronglySorted pos_lt (permutations n l).
Proof.
  intros n. induction n as [|n IH]; intros l L S; [cbn; repeat constructor|].
  cbn [permutations]. destruct (picks_sorted l S) as [P1 P2].
  destruct (blocks_as_map (fun p => permutations n (snd p)) (picks l)) as [P HP].
  assert (ND : NoDup (map fst (picks l))) by (rewrite P1; apply sorted_NoDup, S).
  replace (map _ (picks l)) with (map (fun i => map (cons i) (P i)) (map fst (picks l))).
  - apply (sorted_blocks n); [rewrite P1; exact S| |].
    + intros i Hi. apply in_map_iff in Hi. destruct Hi as ([j r] & E & Hi). cbn in E. subst j.
      rewrite (HP i r Hi ND). cbn [snd]. destruct (picks_In _ _ _ Hi) as [_ E].
      apply IH; [congruence|eapply P2, Hi].
    + intros i p Hi Hp. apply in_map_iff in Hi. destruct Hi as ([j r] & E & Hi). cbn in E. subst j.
      rewrite (HP i r Hi ND) in Hp. cbn [snd] in Hp. destruct (picks_In _ _ _ Hi) as [_ E].
      apply permutations_In in Hp; [|congruence]. apply Permutation_length in Hp. congruence.
  - rewrite map_map. apply map_ext_in. intros [i r] Hi. cbn [fst snd].
    rewrite (HP i r Hi ND). reflexivity.
Qed.

Lemma picks_length : forall {A} (l : list A), length (picks l) = length l.
Proof.
  intros A l. induction l as [|x l IH]; [reflexivity|].
  cbn [picks length]. rewrite map_length, IH. reflexivity.
Qed.

Lemma permutations_length : forall {A} n (l : list A), length l = n ->
  length (permutations n l) = fact n.
Proof.
  intros A n. induction n as [|n IH]; intros l L; [reflexivity|].
  cbn [permutations]. assert (X : forall ps : list (A * list A),
    (forall p, In p ps -> length (snd p) = n) ->
    length (concat (map (fun p => map (cons (fst p)) (permutations n (snd p))) ps))
    = (length ps * fact n)%nat).
  { induction ps as [|p ps IHp]; intro H; [reflexivity|].
    cbn [map concat length]. rewrite app_length, map_length, IH, IHp; [lia| |].
    - intros q Hq. apply H. right. exact Hq.
    - apply H. left. reflexivity. }
  rewrite X.
  - rewrite picks_length, L. reflexivity.
  - intros [x r] H. apply picks_In in H. cbn. lia.
Qed.

Lemma permutations_op : forall fmt v l, elems v l ->
  exists cs rows, run_op fmt "PM" [v] = ret (PList cs)
    /\ Forall2 elems cs rows
    /\ selections (fun ps => Permutation ps (seq 0 (length l))) l rows
    /\ length rows = fact (length l).
Proof.
  intros fmt v l E.
  assert (Ib : is_block v = false) by (eapply elems_not_block, E).
  pose proof (permutations_rel _ (length l) _ _ (items_at_seq l)) as F.
  destruct (rows_values v l _ _ E F) as (cs & R & G).
  exists cs, (permutations (length l) l). split; [|split; [exact G|split]].
  - run_plain; [|rewrite Ib; reflexivity|destruct v; reflexivity].
    unfold op_PERMUTATIONS. rewrite (elems_iterable _ _ E), (p_list_elems _ _ E), bind_lift_val.
    exact R.
  - exists (permutations (length l) (seq 0 (length l))).
    split; [apply permutations_sorted; [apply seq_length|apply sorted_seq]|]. split; [|exact F].
    intro ps. split.
    + apply permutations_In, seq_length.
    + apply permutations_complete; [apply seq_length|apply seq_NoDup].
  - apply permutations_length. reflexivity.
Qed.
