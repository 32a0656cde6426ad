(** * Proofs for unique, weave, reverse, flatten, remove, strip, split and join *)

From Coq Require Import String List NArith ZArith Bool Arith Lia Sorted Permutation.
From Verif Require Import PyStr PyRe PyNum Tokens OpFun OpTable Unparse PTypes
                          Ops OpsSeq Apply StrFacts NumFacts NumCmp Spec SpecRun SpecList
                          PFacts RunOp SeqProof SeqProof2 SortProof.
Import ListNotations.
Local Open Scope string_scope.
Local Open Scope list_scope.
Local Open Scope Z_scope.

(** ** C18 *)

Lemma same_item_plain : forall a b, plain a = true -> (same_item a b = true <-> a = b).
Proof.
  intros a b H. unfold same_item. rewrite andb_true_iff, str_eqb_eq, p_eqb_plain by exact H.
  split; [tauto|intros ->; auto].
Qed.

Lemma seen_in : forall x seen, plain x = true ->
  (existsb (same_item x) seen = true <-> In x seen).
Proof.
  intros x seen H. rewrite existsb_exists. split.
  - intros (y & Iy & E). apply same_item_plain in E; [subst; exact Iy|exact H].
  - intro I. exists x. split; [exact I|]. apply same_item_plain; auto.
Qed.

Lemma unique_spec : forall rest pre seen, Forall (fun x => plain x = true) rest ->
  (forall x, In x seen <-> In x pre) ->
  exists ps, StronglySorted lt ps
    /\ (forall i, In i ps <-> (length pre <= i)%nat
          /\ exists x, least (fun j => nth_error (pre ++ rest) j = Some x) i)
    /\ items_at (pre ++ rest) ps (unique_items seen rest).
Proof.
  induction rest as [|y rest IH]; intros pre seen F Hs.
  - exists []. split; [constructor|]. split; [|constructor].
    intro i. split; [intros []|]. intros (Hi & x & Hx & _).
    rewrite app_nil_r in Hx. assert (i < length pre)%nat by (apply nth_error_Some; congruence).
    lia.
  - inversion F as [|? ? Py Fr]; subst. cbn [unique_items].
    assert (A : pre ++ y :: rest = (pre ++ [y]) ++ rest) by (rewrite <- app_assoc; reflexivity).
    assert (N : nth_error (pre ++ y :: rest) (length pre) = Some y).
    { rewrite nth_error_app2, Nat.sub_diag by lia. reflexivity. }
    destruct (existsb (same_item y) seen) eqn:E.
    + apply seen_in in E; [|exact Py].
      destruct (IH (pre ++ [y]) seen Fr) as (ps & S & I & T).
      { intro x. rewrite in_app_iff, Hs. simpl. apply Hs in E. split; [tauto|].
        intros [?|[<-|[]]]; assumption. }
      exists ps. rewrite <- A in *. split; [exact S|]. split; [|exact T].
      intro i. rewrite I, app_length. simpl. split.
      * intros (L & X). split; [lia|exact X].
      * intros (L & x & Hx & M). split; [|exists x; split; assumption].
        destruct (Nat.eq_dec i (length pre)) as [->|Hne]; [exfalso|lia].
        assert (x = y) by congruence. subst x. apply Hs in E.
        apply In_nth_error in E. destruct E as [j Hj].
        assert (j < length pre)%nat by (apply nth_error_Some; congruence).
        apply (M j); [assumption|]. rewrite nth_error_app1 by assumption. exact Hj.
    + assert (NI : ~ In y pre).
      { intro I. apply Hs in I. apply seen_in in I; congruence. }
      destruct (IH (pre ++ [y]) (y :: seen) Fr) as (ps & S & I & T).
      { intro x. rewrite in_app_iff. simpl. rewrite Hs. tauto. }
      exists (length pre :: ps). rewrite <- A in *. split; [|split].
      * constructor; [exact S|]. apply Forall_forall. intros i Hi. apply I in Hi.
        rewrite app_length in Hi. simpl in Hi. lia.
      * intro i. simpl. rewrite I, app_length. simpl. split.
        -- intros [<-|(L & X)]; [|split; [lia|exact X]].
           split; [lia|]. exists y. split; [exact N|].
           intros j Hj Hn. rewrite nth_error_app1 in Hn by exact Hj.
           apply NI. eapply nth_error_In, Hn.
        -- intros (L & X). destruct (Nat.eq_dec i (length pre)) as [->|Hne]; [auto|].
           right. split; [lia|exact X].
      * constructor; [exact N|exact T].
Qed.

(** Joining Scalars. *)
Lemma join_loop_scal : forall g (sep : option pval) x ss acc,
  match sep with None => x = [] | Some v => v = PScal x end ->
  join_loop g sep (Some (PScal acc)) (map PScal ss)
  = ret (Some (PScal (fold_left (fun a s => a ++ x ++ s) ss acc))).
Proof.
  intros g sep x ss. induction ss as [|s ss IH]; intros acc H; [reflexivity|].
  cbn [map join_loop is_list_or_range fold_left]. rewrite bind_ret.
  destruct sep as [v|]; subst.
  - cbn [op_CAT]. rewrite !bind_ret. cbn [op_CAT]. rewrite bind_ret, IH by reflexivity.
    rewrite <- app_assoc. reflexivity.
  - rewrite !bind_ret. cbn [op_CAT]. rewrite bind_ret, IH by reflexivity. reflexivity.
Qed.

Lemma fold_join : forall x ss acc,
  fold_left (fun a s => a ++ x ++ s) ss acc = str_join x (acc :: ss).
Proof.
  intros x ss. induction ss as [|s ss IH]; intro acc; [reflexivity|].
  cbn [fold_left]. rewrite IH. cbn [str_join].
  destruct ss as [|t ss]; rewrite <- ?app_assoc; reflexivity.
Qed.

Lemma join_scalars : forall sep x ss,
  match sep with None => x = [] | Some v => v = PScal x end ->
  join_list sep (map PScal ss) = ret (PScal (str_join x ss)).
Proof.
  intros sep x ss H. unfold join_list, op_JOIN.
  assert (J : join1 sep (PList (map PScal ss)) = ret (PScal (str_join x ss))).
  { cbn [join1]. destruct ss as [|s ss]; [reflexivity|].
    cbn [map join_loop is_list_or_range]. rewrite !bind_ret.
    rewrite (join_loop_scal _ _ x) by exact H. rewrite bind_ret, fold_join. reflexivity. }
  destruct sep as [v|]; [subst v|]; exact J.
Qed.

Lemma str_join_nil : forall ss, str_join [] ss = concat ss.
Proof.
  induction ss as [|s [|t ss] IH]; simpl in *; [reflexivity|rewrite app_nil_r; reflexivity|].
  rewrite IH. reflexivity.
Qed.

Lemma concat_chars : forall s : str, concat (map (fun c => [c]) s) = s.
Proof. induction s as [|c s IH]; simpl; [reflexivity|f_equal; exact IH]. Qed.

Lemma chars_scal : forall s, chars s = map PScal (map (fun c => [c]) s).
Proof. intro s. unfold chars. rewrite map_map. reflexivity. Qed.

Lemma join_chars : forall s, join_list None (chars s) = ret (PScal s).
Proof.
  intro s. rewrite chars_scal, (join_scalars None []) by reflexivity.
  rewrite str_join_nil, concat_chars. reflexivity.
Qed.

Lemma unique_list : forall fmt l, Forall (fun x => plain x = true) l ->
  exists r, run_op fmt "UQ" [PList l] = ret (PList r) /\ first_occurrences l r.
Proof.
  intros fmt l F. exists (unique_items [] l). split; [run_plain; reflexivity|].
  destruct (unique_spec l [] [] F) as (ps & S & I & T); [tauto|].
  exists ps. split; [exact S|]. split; [|exact T].
  intro i. rewrite I. simpl. split; [tauto|]. intro H. split; [lia|exact H].
Qed.

Lemma items_at_in : forall {A} (l r : list A) ps, items_at l ps r ->
  forall x, In x r <-> exists i, In i ps /\ nth_error l i = Some x.
Proof.
  intros A l r ps H x. induction H as [|i y ps r Hy _ IH]; simpl.
  - split; [intros []|intros (i & [] & _)].
  - rewrite IH. split.
    + intros [->|(j & Hj & E)]; [exists i; auto|exists j; auto].
    + intros (j & [->|Hj] & E); [left; congruence|right; exists j; auto].
Qed.

(** Consequences of keeping exactly the first occurrences. *)
Lemma first_occurrences_facts : forall {A} (l r : list A),
  (forall x y, In x l -> In y l -> x = y \/ x <> y) -> first_occurrences l r ->
  NoDup r /\ (forall x, In x r <-> In x l).
Proof.
  intros A l r D (ps & S & I & T). split.
  - assert (M : forall i, In i ps -> exists x, least (fun j => nth_error l j = Some x) i)
      by (intros; apply I; assumption).
    clear I. induction T as [|i x ps r Hx T IH]; [constructor|].
    inversion S as [|? ? S' F]; subst. constructor.
    + intro Ix. apply (items_at_in l r ps T) in Ix. destruct Ix as (j & Hj & Ej).
      rewrite Forall_forall in F. specialize (F j Hj).
      destruct (M j (or_intror Hj)) as (y & Ey & L).
      assert (x = y) by congruence. subst y. apply (L i F Hx).
    + apply IH; [exact S'|]. intros. apply M. right. assumption.
  - intro x. rewrite (items_at_in l r ps T). split.
    + intros (i & _ & E). eapply nth_error_In, E.
    + intro Hx. apply In_nth_error in Hx. destruct Hx as [n Hn].
      enough (E : exists i, least (fun j => nth_error l j = Some x) i).
      { destruct E as [i [E L]]. exists i. split; [|exact E]. apply I. exists x. split; assumption. }
      clear - D Hn. revert l D Hn. induction n as [|n IH]; intros l D Hn.
      * exists 0%nat. split; [exact Hn|]. intros; lia.
      * destruct l as [|y l]; [discriminate|]. simpl in Hn.
        destruct (IH l) as (i & E & L); [intros; apply D; right; assumption|exact Hn|].
        destruct (D y x) as [Exy|Exy]; [left; reflexivity|right; eapply nth_error_In, Hn| |].
        -- exists 0%nat. split; [simpl; congruence|]. intros; lia.
        -- exists (S i). split; [exact E|]. intros [|j] Hj; simpl; [congruence|].
           apply L. lia.
Qed.

Lemma plain_dec : forall l, Forall (fun x => plain x = true) l ->
  forall x y, In x l -> In y l -> x = y \/ x <> y.
Proof.
  intros l F x y Hx _. rewrite Forall_forall in F. specialize (F x Hx).
  destruct (p_eqb x y) eqn:E.
  - left. apply (p_eqb_plain x y F). exact E.
  - right. intro H. apply (p_eqb_plain x y F) in H. congruence.
Qed.

Lemma unique_subset : forall l seen x, In x (unique_items seen l) -> In x l.
Proof.
  induction l as [|y l IH]; intros seen x; cbn [unique_items]; [auto|].
  destruct (existsb (same_item y) seen); simpl; intro H; [right; eapply IH, H|].
  destruct H; [auto|right; eapply IH; eassumption].
Qed.

Lemma singles_chars : forall l, (forall x, In x l -> exists c, x = PScal [c]) ->
  exists t, l = chars t.
Proof.
  induction l as [|x l IH]; intro H; [exists []; reflexivity|].
  destruct (H x (or_introl eq_refl)) as [c ->].
  destruct IH as [t ->]; [intros; apply H; right; assumption|].
  exists (c :: t). reflexivity.
Qed.

Lemma unique_nodup : forall l seen, NoDup l -> Forall (fun x => plain x = true) l ->
  (forall x, In x l -> ~ In x seen) -> unique_items seen l = l.
Proof.
  induction l as [|y l IH]; intros seen N F D; [reflexivity|].
  inversion N; inversion F; subst. cbn [unique_items].
  destruct (existsb (same_item y) seen) eqn:E.
  - exfalso. apply seen_in in E; [|assumption]. apply (D y); [left; reflexivity|exact E].
  - f_equal. apply IH; [assumption..|]. intros x Hx [<-|I]; [contradiction|].
    apply (D x); [right; exact Hx|exact I].
Qed.

Lemma chars_plain : forall s, Forall (fun x => plain x = true) (chars s).
Proof. intro s. unfold chars. rewrite Forall_map. apply Forall_forall. reflexivity. Qed.

Lemma unique_op : forall fmt v l, not_range v -> elems v l -> plain v = true ->
  exists r lr, run_op fmt "UQ" [v] = ret r /\ not_range r /\ elems r lr
    /\ first_occurrences l lr /\ NoDup lr /\ (forall x, In x lr <-> In x l)
    /\ run_op fmt "UQ" [r] = ret r.
Proof.
  intros fmt v l NR E P.
  assert (F : Forall (fun x => plain x = true) l).
  { destruct E; [apply chars_plain| |destruct NR].
    simpl in P. rewrite forallb_forall in P. apply Forall_forall. exact P. }
  pose proof (unique_spec l [] [] F (fun x => iff_refl _)) as (ps & S & I & T).
  assert (O : first_occurrences l (unique_items [] l)).
  { exists ps. split; [exact S|]. split; [|exact T].
    intro i. rewrite I. simpl. split; [tauto|]. intro H. split; [lia|exact H]. }
  destruct (first_occurrences_facts l _ (plain_dec l F) O) as [ND MEM].
  assert (F' : Forall (fun x => plain x = true) (unique_items [] l)).
  { rewrite Forall_forall in *. intros x Hx. apply F, MEM, Hx. }
  pose proof (unique_nodup _ [] ND F' (fun x _ H => H)) as ID.
  destruct E as [s|l|]; [| |destruct NR].
  - destruct (singles_chars (unique_items [] (chars s))) as [t Ht].
    { intros x Hx. apply unique_subset in Hx. unfold chars in Hx.
      apply in_map_iff in Hx. destruct Hx as (c & <- & _). exists c. reflexivity. }
    fold (chars s) in *. rewrite Ht in *. exists (PScal t), (chars t).
    split; [run_plain; cbn [op_UNIQUE]; rewrite Ht; apply join_chars|].
    split; [exact Logic.I|]. split; [constructor|]. repeat (split; [assumption|]).
    run_plain. cbn [op_UNIQUE]. rewrite ID. apply join_chars.
  - exists (PList (unique_items [] l)), (unique_items [] l).
    split; [run_plain; reflexivity|].
    split; [exact Logic.I|]. split; [constructor|]. repeat (split; [assumption|]).
    run_plain. cbn [op_UNIQUE]. rewrite ID. reflexivity.
Qed.

(** ** C19 *)

Lemma strand_from : forall {A} k i (l : list A) b d j, (0 < k)%nat -> (d < k)%nat ->
  ((b + d) mod k = i)%nat ->
  nth_error (map snd (filter (fun p => Nat.eqb (fst p mod k) i) (combine (seq b (length l)) l))) j
  = nth_error l (j * k + d).
Proof.
  intros A k i. induction l as [|x l IH]; intros b d j Hk Hd Hi.
  - cbn [length seq combine filter map]. generalize (j * k + d)%nat. intro m.
    destruct j, m; reflexivity.
  - cbn [length seq combine filter fst].
    destruct (Nat.eqb (b mod k) i) eqn:E.
    + apply Nat.eqb_eq in E.
      assert (d = 0)%nat.
      { rewrite <- E in Hi.
        pose proof (Nat.div_mod b k ltac:(lia)) as D1.
        pose proof (Nat.div_mod (b + d) k ltac:(lia)) as D2.
        rewrite Hi in D2. pose proof (Nat.mod_upper_bound b k ltac:(lia)).
        assert (((b + d) / k = b / k)%nat \/ ((b + d) / k >= S (b / k))%nat) as [Q|Q].
        { assert (b / k <= (b + d) / k)%nat by (apply Nat.div_le_mono; lia). lia. }
        - rewrite Q in D2. lia.
        - assert (k * S (b / k) <= k * ((b + d) / k))%nat by (apply Nat.mul_le_mono_l; lia).
          lia. }
      subst d. destruct j as [|j]; [reflexivity|].
      cbn [map nth_error snd]. rewrite (IH (S b) (k - 1)%nat j); [|lia|lia|].
      * replace (S j * k + 0)%nat with (S (j * k + (k - 1)))%nat by lia. reflexivity.
      * replace (S b + (k - 1))%nat with (b + 0 + 1 * k)%nat by lia.
        rewrite Nat.mod_add by lia. exact Hi.
    + apply Nat.eqb_neq in E. destruct d as [|d].
      * rewrite Nat.add_0_r in Hi. contradiction.
      * rewrite (IH (S b) d j) by (try lia; replace (S b + d)%nat with (b + S d)%nat by lia;
                                   exact Hi).
        replace (j * k + S d)%nat with (S (j * k + d)) by lia. reflexivity.
Qed.

Lemma nth_error_strand : forall {A} k i (l : list A) j, (i < k)%nat ->
  nth_error (strand k i l) j = nth_error l (j * k + i).
Proof.
  intros A k i l j H. apply strand_from; [lia|exact H|]. simpl. apply Nat.mod_small, H.
Qed.

Lemma row_prefix : forall {A} (l : list A) k b,
  concat (map (fun i => match nth_error l (b + i) with Some x => [x] | None => [] end) (seq 0 k))
  = firstn k (skipn b l).
Proof.
  intros A l k. revert l. induction k as [|k IH]; intros l b; [reflexivity|].
  cbn [seq map concat]. rewrite Nat.add_0_r, <- seq_shift, map_map.
  replace (map _ (seq 0 k))
    with (map (fun i => match nth_error l (S b + i) with Some x => [x] | None => [] end) (seq 0 k))
    by (apply map_ext; intro i; rewrite Nat.add_succ_r; reflexivity).
  rewrite IH. clear IH. revert b. induction l as [|y l IH]; intro b.
  - rewrite !skipn_nil, !firstn_nil. destruct b; reflexivity.
  - destruct b as [|b]; [reflexivity|]. cbn [nth_error skipn]. apply IH.
Qed.

Lemma rows_prefix : forall {A} (l : list A) k n,
  concat (map (fun r => firstn k (skipn (r * k) l)) (seq 0 n)) = firstn (n * k) l.
Proof.
  intros A l k n. induction n as [|n IH]; [reflexivity|].
  rewrite seq_S, map_app, concat_app, IH. cbn [map concat plus]. rewrite app_nil_r.
  rewrite <- (firstn_skipn (n * k) l) at 3. rewrite firstn_app.
  rewrite firstn_firstn, firstn_length.
  replace (Nat.min (S n * k) (n * k)) with (n * k)%nat by lia. f_equal.
  destruct (le_lt_dec (n * k) (length l)) as [H|H].
  - f_equal. lia.
  - rewrite skipn_all2 by lia. rewrite !firstn_nil. reflexivity.
Qed.

Lemma weave_strands : forall (l : list pval) k, (0 < k)%nat ->
  weave_items (map (fun i => strand k i l) (seq 0 k)) = l.
Proof.
  intros l k Hk. unfold weave_items.
  set (n := fold_right _ _ _).
  assert (B : (length l <= n * k)%nat).
  { destruct (le_lt_dec (length l) (n * k)) as [H|H]; [exact H|exfalso].
    assert (M : (length (strand k 0 l) <= n)%nat).
    { unfold n. destruct k; [lia|]. cbn [seq map fold_right]. lia. }
    assert (nth_error (strand k 0 l) n <> None).
    { rewrite nth_error_strand by lia. rewrite Nat.add_0_r. apply nth_error_Some. exact H. }
    apply nth_error_Some in H0. lia. }
  replace (map _ (seq 0 n)) with (map (fun r => firstn k (skipn (r * k) l)) (seq 0 n)).
  - rewrite rows_prefix. apply firstn_all2. exact B.
  - apply map_ext. intro r. rewrite <- row_prefix. f_equal. rewrite map_map.
    apply map_ext_in. intros i Hi. apply in_seq in Hi.
    rewrite nth_error_strand by lia. reflexivity.
Qed.

Lemma mapM_rel : forall {A B} (f : A -> pm B) l m,
  Forall2 (fun x y => f x = ret y) l m -> mapM f l = ret m.
Proof.
  intros A B f l m H. induction H as [|x y l m E _ IH]; [reflexivity|].
  cbn [mapM]. rewrite E, bind_ret, IH, bind_ret. reflexivity.
Qed.

Lemma mapM_lift_list : forall l ls, Forall2 elems l ls ->
  mapM (fun v => lift (p_list v)) l = ret ls.
Proof.
  intros l ls H. apply mapM_rel. induction H as [|v x l ls E _ IH]; constructor; [|exact IH].
  rewrite (p_list_elems _ _ E). reflexivity.
Qed.

Lemma Forall2_length : forall {A B} (R : A -> B -> Prop) l m,
  Forall2 R l m -> length l = length m.
Proof. intros A B R l m H. induction H; simpl; congruence. Qed.

Lemma Forall2_nth_l : forall {A B} (R : A -> B -> Prop) l m, Forall2 R l m ->
  forall i x, nth_error l i = Some x -> exists y, nth_error m i = Some y /\ R x y.
Proof.
  intros A B R l m H. induction H as [|a b l m Hab _ IH]; intros [|i] x E; try discriminate.
  - injection E as <-. exists b. split; [reflexivity|exact Hab].
  - apply (IH i x E).
Qed.

Lemma nth_error_seq0 : forall n i, (i < n)%nat -> nth_error (seq 0 n) i = Some i.
Proof.
  intros n i H. rewrite (nth_error_nth' _ 0%nat) by (rewrite seq_length; exact H).
  rewrite seq_nth by exact H. reflexivity.
Qed.

Definition not_scalar (v : pval) : Prop := match v with PScal _ => False | _ => True end.

Lemma strand_chars : forall k i s, strand k i (chars s) = chars (strand k i s).
Proof.
  intros k i s. unfold strand, chars. rewrite map_length.
  generalize (seq 0 (length s)). induction s as [|c s IH]; intros [|n ns]; try reflexivity.
  cbn [map combine filter fst]. destruct (Nat.eqb (n mod k) i); cbn [map snd]; rewrite IH; reflexivity.
Qed.

Lemma unweave_op : forall fmt v l k, elems v l -> 1 <= k ->
  exists ps, run_op fmt "UW" [v; scal_Z k] = ret (PList ps)
    /\ Z.of_nat (length ps) = k
    /\ (forall i p, nth_error ps i = Some p ->
         exists lp, elems p lp
           /\ forall j, nth_error lp j = nth_error l (j * Z.to_nat k + i))
    /\ run_op fmt "WV" [PList ps] = ret (match v with PScal _ => v | _ => PList l end).
Proof.
  intros fmt v l k E Hk.
  set (ls := map (fun i => strand (Z.to_nat k) i l) (seq 0 (Z.to_nat k))).
  assert (W : weave_items ls = l) by (apply weave_strands; lia).
  assert (Ib : is_block v = false) by (eapply elems_not_block, E).
  assert (X : exists ps, Forall2 elems ps ls
      /\ run_op fmt "UW" [v; scal_Z k] = ret (PList ps)
      /\ run_op fmt "WV" [PList ps] = ret (match v with PScal _ => v | _ => PList l end)).
  { assert (It : is_iterable v = true) by (eapply elems_iterable, E).
    assert (K : (k <? 1) = false) by lia.
    assert (U : op_UNWEAVE v (Some (scal_Z k))
      = match v with
        | PScal _ => do r <- mapM (join_list None) ls; ret (PList r)
        | _ => ret (PList (map PList ls))
        end).
    { pose proof (elems_p_iter _ _ E) as PI. clear W Ib.
      destruct v as [s|r f|l'|lo [u|]|st r|]; try discriminate It; try solve [inversion E];
        unfold op_UNWEAVE, scal_Z; rewrite scalar_int_str, K, PI;
        cbn [is_iterable negb]; rewrite bind_lift_val; reflexivity. }
    destruct (Z.to_nat k) as [|k'] eqn:Ek; [lia|].
    assert (L : (exists s, v = PScal s) \/ not_scalar v) by (destruct v; eauto; right; exact I).
    destruct L as [[s ->]|L].
    - assert (EL : l = chars s) by (inversion E; reflexivity).
      set (ss := map (fun i => strand (S k') i s) (seq 0 (S k'))).
      assert (LS : ls = map chars ss).
      { unfold ls, ss. rewrite EL, map_map. apply map_ext. intro i. apply strand_chars. }
      assert (FE : Forall2 elems (map PScal ss) ls).
      { rewrite LS. clearbody ss. clear. induction ss; constructor; [constructor|assumption]. }
      assert (NE : map PScal ss <> []) by discriminate.
      exists (map PScal ss). split; [exact FE|]. split.
      + run_plain. rewrite U, LS.
        rewrite (mapM_rel _ (map chars ss) (map PScal ss)).
        * rewrite bind_ret. reflexivity.
        * clear. induction ss; constructor; [apply join_chars|assumption].
      + run_plain. cbn [op_WEAVE1 p_iter]. rewrite bind_lift_val.
        replace (map nil_to_empty (map PScal ss)) with (map PScal ss)
          by (rewrite map_map; reflexivity).
        rewrite (mapM_lift_list _ _ FE), bind_ret, W, EL.
        assert (F1 : forallb is_iterable (map PScal ss) = true)
          by (clear; induction ss; [reflexivity|assumption]).
        assert (F2 : forallb is_scalar (map PScal ss) = true)
          by (clear; induction ss; [reflexivity|assumption]).
        rewrite F1, F2. unfold join_scalar. rewrite join_chars, bind_ret.
        destruct (map PScal ss); [contradiction|reflexivity].
    - exists (map PList ls).
      assert (FE : Forall2 elems (map PList ls) ls).
      { clear. induction ls; constructor; [constructor|assumption]. }
      assert (NE : map PList ls <> []) by discriminate.
      assert (F2 : forallb is_scalar (map PList ls) = false) by reflexivity.
      split; [exact FE|]. split.
      + run_plain; [rewrite U; destruct v; try reflexivity; destruct L|rewrite Ib; reflexivity|].
        destruct v; reflexivity.
      + run_plain. cbn [op_WEAVE1 p_iter]. rewrite bind_lift_val.
        replace (map nil_to_empty (map PList ls)) with (map PList ls)
          by (rewrite map_map; reflexivity).
        rewrite (mapM_lift_list _ _ FE), bind_ret, W, F2.
        assert (F1 : forallb is_iterable (map PList ls) = true)
          by (clear; induction ls; [reflexivity|assumption]).
        rewrite F1. destruct (map PList ls); [contradiction|].
        destruct v; try reflexivity. destruct L. }
  destruct X as (ps & FE & R1 & R2). exists ps. split; [exact R1|].
  assert (LL : length ps = Z.to_nat k).
  { rewrite (Forall2_length _ _ _ FE). unfold ls. rewrite map_length, seq_length. reflexivity. }
  split; [lia|]. split; [|exact R2].
  intros i p Hp. assert (Hi : (i < Z.to_nat k)%nat) by (rewrite <- LL; apply nth_error_Some; congruence).
  destruct (Forall2_nth_l _ _ _ FE i p Hp) as (lp & Hlp & Ep).
  exists lp. split; [exact Ep|]. intro j.
  unfold ls in Hlp. rewrite nth_error_map, nth_error_seq0 in Hlp by exact Hi.
  injection Hlp as <-. apply nth_error_strand, Hi.
Qed.

(** ** C22 *)

Lemma mirror_op : forall fmt text (f : forall A, list A -> list A) v l,
  (text, f) = ("RV", fun A (l : list A) => rev l)
  \/ (text, f) = ("RF", fun A (l : list A) => l ++ rev l)
  \/ (text, f) = ("PZ", fun A (l : list A) => l ++ tl (rev l)) ->
  elems v l ->
  run_op fmt text [v] = ret (match v with PScal s => PScal (f char s) | _ => PList (f pval l) end).
Proof.
  intros fmt text f v l H E.
  assert (Ib : is_block v = false) by (eapply elems_not_block, E).
  assert (M : forall w, mirror w f v
    = ret (match v with PScal s => PScal (f char s) | _ => PList (f pval l) end)).
  { intro w. pose proof (p_list_elems _ _ E) as P.
    destruct v as [s|r g|l'|lo [u|]|st r|]; try solve [inversion E]; cbn [mirror]; [reflexivity|..];
      rewrite P, bind_lift_val; reflexivity. }
  destruct H as [H|[H|H]]; injection H as -> ->;
    (run_plain; [apply M|rewrite Ib; reflexivity|destruct v; reflexivity]).
Qed.

Lemma palindrome_scal : forall (g : forall A, list A -> list A) s,
  (forall A B (h : A -> B) l, map h (g A l) = g B (map h l)) ->
  chars (g char s) = g pval (chars s).
Proof. intros g s H. unfold chars. apply H. Qed.

Lemma map_tl : forall {A B} (h : A -> B) l, map h (tl l) = tl (map h l).
Proof. intros A B h [|x l]; reflexivity. Qed.

Lemma mirror_elems : forall (g : forall A, list A -> list A) v l,
  (forall A B (h : A -> B) l, map h (g A l) = g B (map h l)) ->
  elems v l ->
  elems (match v with PScal s => PScal (g char s) | _ => PList (g pval l) end) (g pval l).
Proof.
  intros g v l H E. destruct E as [s|l|lo u]; [|constructor..].
  pose proof (palindrome_scal g s H) as P. fold (chars s). rewrite <- P. constructor.
Qed.

Lemma tl_rev_palin : forall {A} (l : list A),
  rev (l ++ tl (rev l)) = l ++ tl (rev l).
Proof.
  intros A l. destruct (rev l) as [|x t] eqn:E.
  - simpl. rewrite app_nil_r. apply (f_equal (@rev A)) in E.
    rewrite rev_involutive in E. subst. reflexivity.
  - simpl. rewrite rev_app_distr, E.
    apply (f_equal (@rev A)) in E. rewrite rev_involutive in E. subst l.
    simpl. rewrite <- app_assoc. reflexivity.
Qed.

Lemma length_tl : forall {A} (l : list A), length (tl l) = (length l - 1)%nat.
Proof. intros A [|x l]; simpl; lia. Qed.

(** ** C25 *)

Lemma mapR_Forall2 : forall {A B} (f : A -> res B) l m,
  Forall2 (fun x y => f x = Val y) l m -> mapR f l = Val m.
Proof.
  intros A B f l m H. induction H as [|x y l m E _ IH]; [reflexivity|].
  cbn [mapR]. rewrite E, IH. reflexivity.
Qed.

Lemma pval_two_ind : forall P : pval -> Prop,
  (forall v, match v with PList _ => False | _ => True end -> P v) ->
  (forall l, Forall P l -> P (PList l)) -> forall v, P v.
Proof. intros P H1 H2 v. induction v using pval_list_ind; auto; apply H1; exact I. Qed.

Definition atom_value (v : pval) : Prop :=
  match v with PList _ | PRange _ _ => False | _ => True end.

Lemma flatten_leaves : forall v r, leaves v r -> flatten_items v = Val r.
Proof.
  induction v as [v NL|l IH] using pval_two_ind; intros r H.
  - destruct H as [l ls F|lo u l E|v A].
    + destruct NL.
    + cbn [flatten_items]. rewrite <- (elems_det _ _ _ (elems_range_ints lo u) E). reflexivity.
    + destruct v; try reflexivity; destruct A.
  - inversion H as [l0 ls F|lo u l0 E|v A]; subst; [|destruct A].
    change (rbind (mapR flatten_items l) (fun ll => Val (concat ll)) = Val (concat ls)).
    rewrite (mapR_Forall2 _ l ls); [reflexivity|]. clear H.
    induction F as [|x y l ls Hx F IHF]; constructor.
    + inversion IH; subst. auto.
    + apply IHF. inversion IH; assumption.
Qed.

Lemma leaves_atoms : forall v r, leaves v r -> Forall atom_value r.
Proof.
  induction v as [v NL|l IH] using pval_two_ind; intros r H.
  - destruct H as [l ls F|lo u l E|v A].
    + destruct NL.
    + rewrite <- (elems_det _ _ _ (elems_range_ints lo u) E). apply Forall_forall.
      intros x Hx. apply in_map_iff in Hx. destruct Hx as (z & <- & _). exact I.
    + constructor; [destruct v; auto|constructor].
  - inversion H as [l0 ls F|lo u l0 E|v A]; subst; [|destruct A]. clear H.
    induction F as [|x y l ls Hx F IHF]; [constructor|]. inversion IH; subst.
    simpl. apply Forall_app. split; auto.
Qed.

Lemma atoms_leaves : forall r, Forall atom_value r -> leaves (PList r) r.
Proof.
  intros r F. assert (E : r = concat (map (fun x => [x]) r)).
  { clear. induction r; simpl; congruence. }
  rewrite E at 2. constructor. clear E. induction F as [|x r Hx F IH]; [constructor|].
  simpl. constructor; [|exact IH]. apply leaves_atom. destruct x; auto.
Qed.

Lemma bounded_leaves : forall v, bounded v = true -> exists r, leaves v r.
Proof.
  induction v as [v NL|l IH] using pval_two_ind; intro H.
  - destruct v as [s|r f|l'|lo [u|]|st r|]; try discriminate; try (eexists; apply leaves_atom; exact I).
    + destruct NL.
    + eexists. apply leaves_range, elems_range_ints.
  - assert (X : exists ls, Forall2 leaves l ls).
    { simpl in H. induction l as [|x l IHl]; [exists []; constructor|].
      simpl in H. apply andb_true_iff in H. destruct H as [Hx Hl]. inversion IH; subst.
      destruct (H1 Hx) as [r Hr]. destruct IHl as [ls Hls]; [assumption..|].
      exists (r :: ls). constructor; assumption. }
    destruct X as [ls F]. exists (concat ls). constructor. exact F.
Qed.

Lemma flatten_op : forall fmt v r, is_list_or_range v = true -> leaves v r ->
  run_op fmt "FA" [v] = ret (PList r).
Proof.
  intros fmt v r L H. apply flatten_leaves in H. run_plain.
  - unfold op_FLATTENALL. rewrite L, H, bind_lift_val. reflexivity.
  - destruct v; try discriminate; reflexivity.
  - destruct v; reflexivity.
Qed.

(** ** C24 *)

Lemma drop_while_spec : forall {A} (p : A -> bool) l,
  exists a, l = a ++ drop_while p l /\ Forall (fun x => p x = true) a
    /\ forall c r, drop_while p l = c :: r -> p c = false.
Proof.
  intros A p l. induction l as [|x l IH].
  - exists []. split; [reflexivity|]. split; [constructor|discriminate].
  - cbn [drop_while]. destruct (p x) eqn:E.
    + destruct IH as (a & E1 & E2 & E3). exists (x :: a).
      split; [simpl; congruence|]. split; [constructor; assumption|exact E3].
    + exists []. split; [reflexivity|]. split; [constructor|]. intros c r H. congruence.
Qed.

Lemma rstrip_spec : forall p s,
  exists b, s = rstrip p s ++ b /\ Forall (fun x => p x = true) b
    /\ forall r c, rstrip p s = r ++ [c] -> p c = false.
Proof.
  intros p s. unfold rstrip. destruct (drop_while_spec p (rev s)) as (a & E1 & E2 & E3).
  exists (rev a). split; [|split].
  - apply (f_equal (@rev char)) in E1. rewrite rev_involutive, rev_app_distr in E1. exact E1.
  - apply Forall_rev, E2.
  - intros r c H. apply (f_equal (@rev char)) in H. rewrite rev_involutive, rev_app_distr in H.
    apply (E3 c (rev r) H).
Qed.

Lemma Forall_equiv : forall {A} (P Q : A -> Prop) l, (forall x, P x <-> Q x) ->
  Forall P l -> Forall Q l.
Proof. intros A P Q l H F. eapply Forall_impl; [|exact F]. intros x Hx. apply H, Hx. Qed.

Lemma strip_ends_spec : forall e p (P : char -> Prop) s left right,
  (forall c, p c = true <-> P c) ->
  (e, (left, right)) = (Both, (true, true)) \/ (e, (left, right)) = (LeftEnd, (true, false))
  \/ (e, (left, right)) = (RightEnd, (false, true)) ->
  stripped left right P s (strip_ends e p s).
Proof.
  intros e p P s left right HP H.
  assert (NP : forall c, p c = false -> ~ P c).
  { intros c Hc X. apply HP in X. congruence. }
  destruct H as [H|[H|H]]; injection H as -> -> ->; cbn [strip_ends].
  - unfold strip, lstrip. destruct (drop_while_spec p s) as (a & E1 & E2 & E3).
    destruct (rstrip_spec p (drop_while p s)) as (b & F1 & F2 & F3).
    exists a, b. split; [rewrite <- F1; exact E1|].
    split; [eapply Forall_equiv; [exact HP|exact E2]|].
    split; [eapply Forall_equiv; [exact HP|exact F2]|]. split.
    + intros c r' Hr. apply NP. rewrite Hr in F1. simpl in F1. apply (E3 c (r' ++ b)), F1.
    + intros r' c Hr. apply NP, (F3 r' c Hr).
  - unfold lstrip. destruct (drop_while_spec p s) as (a & E1 & E2 & E3).
    exists a, []. split; [rewrite app_nil_r; exact E1|].
    split; [eapply Forall_equiv; [exact HP|exact E2]|]. split; [constructor|].
    split; [|reflexivity]. intros c r' Hr. apply NP, (E3 c r' Hr).
  - destruct (rstrip_spec p s) as (b & F1 & F2 & F3).
    exists [], b. split; [exact F1|]. split; [constructor|].
    split; [eapply Forall_equiv; [exact HP|exact F2]|]. split; [reflexivity|].
    intros r' c Hr. apply NP, (F3 r' c Hr).
Qed.

Lemma cls_in_In : forall x c, cls_in x c = true <-> In c x.
Proof.
  intros x c. unfold cls_in. rewrite existsb_exists. split.
  - intros (d & Hd & E). apply N.eqb_eq in E. subst. exact Hd.
  - intro H. exists c. split; [exact H|apply N.eqb_refl].
Qed.

Lemma strip_op : forall fmt text left right (s : str),
  In (text, (left, right)) [("||", (true, true)); ("|>", (true, false)); ("<|", (false, true))] ->
  (exists r, run_op fmt text [PScal s] = ret (PScal r)
     /\ stripped left right (fun c => is_space c = true) s r)
  /\ (forall x : str, exists r, run_op fmt text [PScal s; PScal x] = ret (PScal r)
     /\ stripped left right (fun c => In c x) s r).
Proof.
  intros fmt text left right s H.
  destruct H as [H|[H|[H|[]]]]; injection H as <- <- <-; split;
    try (eexists; split; [run_plain; reflexivity|];
         apply strip_ends_spec; [reflexivity|tauto]);
    (intro x; eexists; split; [run_plain; reflexivity|];
       apply strip_ends_spec; [apply cls_in_In|tauto]).
Qed.

(** ** C23 *)

Lemma split_skip : forall sep k cur s, (k <= length s)%nat ->
  split_ne sep k cur s = split_ne sep 0 cur (skipn k s).
Proof.
  intros sep k. induction k as [|k IH]; intros cur s H; [reflexivity|].
  destruct s as [|c s]; [simpl in H; lia|]. cbn [split_ne skipn]. apply IH. simpl in H. lia.
Qed.

Lemma split_hit : forall sep cur t, sep <> [] ->
  split_ne sep 0 cur (sep ++ t) = cur :: split_ne sep 0 [] t.
Proof.
  intros sep cur t H. destruct sep as [|c sep]; [contradiction|].
  pose proof (startswith_app (c :: sep) t) as S.
  change ((c :: sep) ++ t) with (c :: (sep ++ t)) in *. cbn [split_ne]. rewrite S.
  f_equal. rewrite split_skip by (rewrite app_length; simpl; lia).
  f_equal. simpl. rewrite Nat.sub_0_r. rewrite skipn_app, skipn_all, Nat.sub_diag. reflexivity.
Qed.

Lemma occurs_at_app : forall sub s t i, occurs_at sub s i -> occurs_at sub (s ++ t) i.
Proof.
  intros sub s t i (a & b & -> & L). exists a, (b ++ t). rewrite <- !app_assoc. auto.
Qed.

Lemma app_len_inj : forall {A} (a c b d : list A), length a = length c ->
  a ++ b = c ++ d -> a = c /\ b = d.
Proof.
  intros A a. induction a as [|x a IH]; intros [|y c] b d L E; try discriminate.
  - auto.
  - simpl in L, E. injection E as -> E. injection L as L. destruct (IH c b d L E) as [-> ->]. auto.
Qed.

Lemma split_spec : forall sep, sep <> [] -> forall n s cur, (length s <= n)%nat ->
  (forall i, (i < length cur)%nat -> ~ occurs_at sep (cur ++ s) i) ->
  str_join sep (split_ne sep 0 cur s) = cur ++ s
  /\ split_ne sep 0 cur s <> []
  /\ Forall (fun p => forall i, ~ occurs_at sep p i) (split_ne sep 0 cur s).
Proof.
  intros sep Hsep. induction n as [|n IH]; intros s cur Hn Hc.
  - destruct s; [|simpl in Hn; lia]. cbn [split_ne str_join]. rewrite app_nil_r in *.
    split; [reflexivity|]. split; [discriminate|]. constructor; [|constructor].
    intros i O. apply (Hc i); [|exact O]. apply occurs_at_bound in O.
    destruct sep; [contradiction|]. simpl in O. lia.
  - assert (P : forall q, (forall i, (i < length cur)%nat -> ~ occurs_at sep (cur ++ q) i) ->
      forall i, ~ occurs_at sep cur i).
    { intros q Hq i O. apply (Hq i); [|apply occurs_at_app, O].
      apply occurs_at_bound in O. destruct sep; [contradiction|]. simpl in O. lia. }
    destruct s as [|c s]; [apply IH; [simpl; lia|exact Hc]|].
    destruct (startswith sep (c :: s)) eqn:E.
    + pose proof E as E'. apply startswith_spec in E'. destruct E' as [t Ht].
      rewrite Ht in *. rewrite split_hit by exact Hsep.
      rewrite app_length in Hn. destruct sep as [|d sep]; [contradiction|].
      destruct (IH t []) as (J & N & F); [simpl in Hn; lia|simpl; lia|].
      split; [|split; [discriminate|constructor; [apply (P _ Hc)|exact F]]].
      destruct (split_ne (d :: sep) 0 [] t) as [|q qs]; [contradiction|].
      change (str_join (d :: sep) (cur :: q :: qs))
        with (cur ++ (d :: sep) ++ str_join (d :: sep) (q :: qs)).
      rewrite J. reflexivity.
    + cbn [split_ne]. rewrite E.
      assert (A : cur ++ c :: s = (cur ++ [c]) ++ s) by (rewrite <- app_assoc; reflexivity).
      destruct (IH s (cur ++ [c])) as (J & N & F).
      * simpl in Hn. lia.
      * rewrite <- A. intros i Hi. rewrite app_length in Hi. simpl in Hi.
        destruct (Nat.eq_dec i (length cur)) as [->|Hne]; [|apply Hc; lia].
        intros (a & b & Eq & La).
        assert (a = cur /\ sep ++ b = c :: s) as [-> Eb].
        { symmetry in Eq. destruct (app_len_inj _ _ _ _ La Eq). auto. }
        rewrite <- Eb, startswith_app in E. discriminate.
      * rewrite A. auto.
Qed.

Lemma split_piece : forall c p cur t, ~ In c p ->
  split_ne [c] 0 cur (p ++ t) = split_ne [c] 0 (cur ++ p) t.
Proof.
  intros c p. induction p as [|d p IH]; intros cur t H; [rewrite app_nil_r; reflexivity|].
  simpl in H. cbn [app split_ne startswith].
  assert (N : (c =? d)%N = false) by (apply N.eqb_neq; intro; subst; tauto).
  rewrite N. cbn [andb]. rewrite IH by tauto. rewrite <- app_assoc. reflexivity.
Qed.

Lemma split_join_char : forall c ps, ps <> [] -> Forall (fun p => ~ In c p) ps ->
  str_split [c] (str_join [c] ps) = ps.
Proof.
  intros c ps H F. unfold str_split. induction F as [|p ps Hp F IH]; [contradiction|].
  destruct ps as [|q ps].
  - cbn [str_join]. rewrite <- (app_nil_r p) at 1. rewrite split_piece by exact Hp. reflexivity.
  - change (str_join [c] (p :: q :: ps)) with (p ++ [c] ++ str_join [c] (q :: ps)).
    rewrite split_piece by exact Hp. rewrite split_hit by discriminate.
    rewrite IH by discriminate. reflexivity.
Qed.

Lemma run_split : forall fmt (s sep : str), sep <> [] ->
  run_op fmt "^" [PScal s; PScal sep] = ret (PList (map PScal (str_split sep s))).
Proof.
  intros fmt s sep H. run_plain. unfold op_SPLIT. destruct sep; [contradiction|].
  rewrite bind_ret. reflexivity.
Qed.

Lemma run_join : forall fmt (ss : list str) (sep : str),
  run_op fmt "J" [PList (map PScal ss); PScal sep] = ret (PScal (str_join sep ss)).
Proof.
  intros fmt ss sep. run_plain.
  apply (join_scalars (Some (PScal sep)) sep ss). reflexivity.
Qed.
Lemma run_join1 : forall fmt (ss : list str),
  run_op fmt "J" [PList (map PScal ss)] = ret (PScal (concat ss)).
Proof.
  intros fmt ss. run_plain. rewrite <- str_join_nil.
  apply (join_scalars None [] ss). reflexivity.
Qed.

Lemma split_then_join : forall fmt (s sep : str), sep <> [] ->
  exists ps, run_op fmt "^" [PScal s; PScal sep] = ret (PList (map PScal ps))
    /\ run_op fmt "J" [PList (map PScal ps); PScal sep] = ret (PScal s)
    /\ ps <> []
    /\ forall p, In p ps -> ~ exists i, occurs_at sep p i.
Proof.
  intros fmt s sep H. exists (str_split sep s).
  destruct (split_spec sep H (length s) s []) as (J & N & F); [lia|simpl; lia|].
  split; [apply run_split, H|]. split; [rewrite run_join; unfold str_split; rewrite J; reflexivity|].
  split; [exact N|]. intros p Hp (i & O). rewrite Forall_forall in F. apply (F p Hp i O).
Qed.

(** ** C30 *)

Lemma remove_list : forall fmt v l x, is_list_or_range v = true -> elems v l -> plain x = true ->
  exists r, run_op fmt "RM" [v; x] = ret (PList r) /\ without x l r.
Proof.
  intros fmt v l x L E P. exists (filter (fun y => negb (p_eqb y x)) l). split.
  - pose proof (p_list_elems _ _ E) as PL.
    assert (Ib : is_block v = false) by (eapply elems_not_block, E).
    assert (Ix : is_block x = false) by (destruct x; try reflexivity; discriminate).
    run_plain.
    + destruct v; try discriminate; unfold op_REMOVE; rewrite PL, bind_lift_val; reflexivity.
    + rewrite Ib, Ix. reflexivity.
    + destruct v, x; reflexivity.
  - clear - P. induction l as [|y l IH]; [constructor|]. cbn [filter].
    destruct (p_eqb y x) eqn:E; cbn [negb].
    + apply p_eqb_plain_r in E; [|exact P]. subst. constructor. exact IH.
    + constructor; [|exact IH]. intro H. apply (p_eqb_plain_r y x P) in H. congruence.
Qed.

Lemma replace_skip : forall old new k s, (k <= length s)%nat ->
  replace_ne old new k s = replace_ne old new 0 (skipn k s).
Proof.
  intros old new k. induction k as [|k IH]; intros s H; [reflexivity|].
  destruct s as [|c s]; [simpl in H; lia|]. cbn [replace_ne skipn]. apply IH. simpl in H. lia.
Qed.

Lemma replace_split : forall old, old <> [] -> forall n s cur, (length s <= n)%nat ->
  cur ++ replace_ne old [] 0 s = concat (split_ne old 0 cur s).
Proof.
  intros old Ho. induction n as [|n IH]; intros s cur Hn.
  - destruct s; [|simpl in Hn; lia]. reflexivity.
  - destruct s as [|c s]; [reflexivity|].
    destruct (startswith old (c :: s)) eqn:E.
    + pose proof E as E'. apply startswith_spec in E'. destruct E' as [t Ht].
      cbn [replace_ne]. rewrite E. cbn [app].
      assert (S : skipn (length old - 1) s = t /\ (length old - 1 <= length s)%nat).
      { destruct old as [|d old]; [contradiction|]. simpl in Ht. injection Ht as -> ->.
        simpl. rewrite Nat.sub_0_r, skipn_app, skipn_all, Nat.sub_diag, app_length. split; [reflexivity|lia]. }
      destruct S as [S1 S2]. rewrite replace_skip by exact S2. rewrite S1, Ht, split_hit by exact Ho.
      cbn [concat]. rewrite <- (IH t []); [reflexivity|].
      rewrite <- S1, skipn_length. simpl in Hn. lia.
    + cbn [replace_ne split_ne]. rewrite E. simpl in Hn. rewrite <- IH by lia.
      rewrite <- app_assoc. reflexivity.
Qed.

Lemma run_remove : forall fmt (s x : str), x <> [] ->
  run_op fmt "RM" [PScal s; PScal x] = ret (PScal (concat (str_split x s))).
Proof.
  intros fmt s x H. run_plain. cbn [op_REMOVE remove_scalar]. do 2 f_equal.
  unfold str_replace, str_split. destruct x; [contradiction|].
  rewrite <- (replace_split _ H (length s) s []) by lia. reflexivity.
Qed.

Lemma replace_char_without : forall c s, without c s (replace_ne [c] [] 0 s).
Proof.
  intros c s. induction s as [|d s IH]; [constructor|].
  cbn [replace_ne startswith]. destruct (N.eqb c d) eqn:E; cbn [andb].
  - apply N.eqb_eq in E. subst. constructor. exact IH.
  - constructor; [|exact IH]. apply N.eqb_neq in E. congruence.
Qed.

Lemma remove_char : forall fmt (s : str) (c : char),
  exists r : str, run_op fmt "RM" [PScal s; PScal [c]] = ret (PScal r) /\ without c s r.
Proof.
  intros fmt s c. exists (replace_ne [c] [] 0 s). split; [|apply replace_char_without].
  run_plain. reflexivity.
Qed.

Lemma without_facts : forall {A} (x : A) l r, without x l r ->
  ~ In x r /\ forall y, In y r -> In y l.
Proof.
  intros A x l r H. induction H as [|l r H [N M]|y l r Hy H [N M]]; simpl.
  - auto.
  - split; [exact N|]. auto.
  - split; [intros [E|E]; [congruence|exact (N E)]|]. intros z [->|Hz]; auto.
Qed.

(** ** C16 for Scalars *)

Lemma sort_string_scalar : forall fmt text (s : str), In text ["SS"; "DS"] ->
  exists t, run_op fmt text [PScal s] = ret (PScal t)
    /\ stably_sorted (directed (String.eqb text "DS") lex_lt) (map (fun c => [c]) s)
                     (map (fun c => [c]) t).
Proof.
  intros fmt text s Ht. destruct (run_sort_str fmt text (PScal s) (chars s) Ht) as (r & S & R);
    [constructor|].
  assert (P : Permutation r (chars s)).
  { destruct S as (ps & P & _ & <-). apply (Permutation_map snd) in P. rewrite P.
    clear. assert (H : forall b, map snd (combine (seq b (length (chars s))) (chars s)) = chars s).
    { induction (chars s) as [|x l IH]; intro b; [reflexivity|]. simpl. f_equal. apply IH. }
    rewrite H. reflexivity. }
  destruct (singles_chars r) as [t ->].
  { intros x Hx. apply (Permutation_in _ P) in Hx. unfold chars in Hx. apply in_map_iff in Hx.
    destruct Hx as (c & <- & _). exists c. reflexivity. }
  exists t. split.
  - rewrite R. do 2 f_equal. cbn [p_str]. unfold chars. rewrite map_map. apply concat_chars.
  - rewrite !chars_scal in S. destruct S as (ps & PP & SS & M).
    exists (map (fun p => (fst p, p_str fmt (snd p))) ps). split; [|split].
    + apply (Permutation_map (fun p => (fst p, p_str fmt (snd p)))) in PP. rewrite PP.
      clear. assert (H : forall b, map (fun p => (fst p, p_str fmt (snd p)))
         (combine (seq b (length (map PScal (map (fun c : char => [c]) s)))) (map PScal (map (fun c => [c]) s)))
         = combine (seq b (length (map (fun c : char => [c]) s))) (map (fun c => [c]) s)).
      { induction s as [|c s IH]; intro b; [reflexivity|]. simpl. f_equal. apply IH. }
      rewrite H. reflexivity.
    + clear - SS. induction SS as [|p ps SS IH F]; simpl; constructor; [exact IH|].
      rewrite Forall_map. eapply Forall_impl; [|exact F]. intros q Hq. cbn [fst snd].
      destruct (String.eqb text "DS"); exact Hq.
    + rewrite map_map. cbn [snd]. rewrite <- (map_map snd (p_str fmt)), M, !map_map.
      apply map_ext. reflexivity.
Qed.
