(** * Text and grid operators: lemmas for C82-C85 *)

From Coq Require Import String List NArith ZArith Bool Arith Lia ZifyBool.
From Verif Require Import PyStr PyRe PyNum Tokens OpFun OpTable Unparse PTypes
                          Ops OpsSeq Apply NumFacts Spec SpecText PFacts RunOp.
From Verif Require NumProof NumProof2 ListProof SeqProof CombProof.
Import ListNotations.
Local Open Scope string_scope.
Local Open Scope list_scope.
Local Open Scope Z_scope.

(** ** Letter case *)

Lemma upper_is : forall c, is_upper c = true <-> exists k, upper_letter k c.
Proof.
  intro c. unfold is_upper, upper_letter. split.
  - intro H. exists (c - 65)%N. lia.
  - intros (k & H & ->). lia.
Qed.
Lemma lower_is : forall c, is_lower c = true <-> exists k, lower_letter k c.
Proof.
  intro c. unfold is_lower, lower_letter. split.
  - intro H. exists (c - 97)%N. lia.
  - intros (k & H & ->). lia.
Qed.

Lemma to_lower_lowered : forall c, lowered c (to_lower c).
Proof.
  intro c. unfold to_lower. destruct (is_upper c) eqn:E.
  - left. apply upper_is in E. destruct E as (k & E). exists k. split; [exact E|].
    unfold upper_letter, lower_letter in *. lia.
  - right. split; [|reflexivity]. intros k H.
    assert (is_upper c = true) by (apply upper_is; eauto). congruence.
Qed.
Lemma to_upper_raised : forall c, raised c (to_upper c).
Proof.
  intro c. unfold to_upper. destruct (is_lower c) eqn:E.
  - left. apply lower_is in E. destruct E as (k & E). exists k. split; [exact E|].
    unfold upper_letter, lower_letter in *. lia.
  - right. split; [|reflexivity]. intros k H.
    assert (is_lower c = true) by (apply lower_is; eauto). congruence.
Qed.
Lemma swap_case_swapped : forall c, swapped c (swap_case c).
Proof.
  intro c. unfold swap_case. destruct (is_upper c) eqn:E.
  - destruct (to_lower_lowered c) as [H|[H _]]; [left; exact H|].
    apply upper_is in E. destruct E as (k & E). exfalso. eapply H, E.
  - right. destruct (to_upper_raised c) as [H|[H ->]]; [left; exact H|].
    right. split; [|reflexivity]. intros (k & [K|K]); [eapply H, K|].
    assert (is_upper c = true) by (apply upper_is; eauto). congruence.
Qed.

Lemma letter_is : forall c, is_upper c || is_lower c = true <-> letter c.
Proof.
  intro c. rewrite orb_true_iff, upper_is, lower_is. unfold letter. split.
  - intros [(k & H)|(k & H)]; exists k; auto.
  - intros (k & [H|H]); eauto.
Qed.

Lemma ascii_only_iff : forall s, ascii_only s = true <-> ascii s.
Proof.
  intro s. unfold ascii_only, ascii. rewrite forallb_forall, Forall_forall.
  split; intros H c Hc; specialize (H c Hc); lia.
Qed.

Lemma Forall2_map : forall {A B} (f : A -> B) (R : A -> B -> Prop) l,
  (forall x, R x (f x)) -> Forall2 R l (map f l).
Proof. intros A B f R l H. induction l; constructor; auto. Qed.

Lemma run_case : forall fmt s, ascii s ->
  run_op fmt "LC" [PScal s] = ret (PScal (map to_lower s))
  /\ run_op fmt "UC" [PScal s] = ret (PScal (map to_upper s))
  /\ run_op fmt "SC" [PScal s] = ret (PScal (map swap_case s))
  /\ run_op fmt "IC" [PScal s] = ret (PScal (capitalize s))
  /\ run_op fmt "TC" [PScal s] = ret (PScal (title_from false s)).
Proof.
  intros fmt s H. apply ascii_only_iff in H.
  repeat split; run_plain; unfold op_LOWERCASE, op_UPPERCASE, op_SWAPCASE, op_INITIALCAPS,
    op_TITLECASE, op_case; rewrite H; reflexivity.
Qed.

Lemma title_nth : forall s b i c, nth_error s i = Some c ->
  exists d, nth_error (title_from b s) i = Some d
    /\ ((match i with O => b = true | S j => exists c', nth_error s j = Some c' /\ letter c' end)
        -> lowered c d)
    /\ ((match i with O => b = false | S j => exists c', nth_error s j = Some c' /\ ~ letter c' end)
        -> raised c d).
Proof.
  induction s as [|x s IH]; intros b i c H; [destruct i; discriminate|].
  destruct i as [|i]; cbn [nth_error title_from] in *.
  - injection H as ->. eexists. split; [reflexivity|]. destruct b; split; intro K; try discriminate.
    + apply to_lower_lowered.
    + apply to_upper_raised.
  - destruct (IH (is_upper x || is_lower x) i c H) as (d & Hd & L & R).
    exists d. split; [exact Hd|]. destruct i as [|i].
    + split; intros (c' & E & K); injection E as ->; [apply L|apply R].
      * apply letter_is, K.
      * destruct (is_upper c' || is_lower c') eqn:E; [|reflexivity].
        exfalso. apply K, letter_is, E.
    + split; intros (c' & E & K); [apply L|apply R]; exists c'; auto.
Qed.

Lemma title_length : forall s b, length (title_from b s) = length s.
Proof. induction s; intro b; cbn; auto. Qed.

Lemma swap_twice : forall c, swap_case (swap_case c) = c.
Proof.
  intro c. unfold swap_case, to_lower, to_upper, is_upper, is_lower.
  repeat match goal with |- context [if ?b then _ else _] =>
    lazymatch b with context [if _ then _ else _] => fail | _ => destruct b eqn:? end end;
  unfold char in *; lia.
Qed.

Lemma swap_ascii : forall s, ascii s -> ascii (map swap_case s).
Proof.
  intros s H. unfold ascii in *. rewrite Forall_map. eapply Forall_impl; [|exact H].
  intros c Hc. cbn beta. unfold swap_case, to_lower, to_upper, is_upper, is_lower.
  repeat match goal with |- context [if ?b then _ else _] =>
    lazymatch b with context [if _ then _ else _] => fail | _ => destruct b eqn:? end end;
  unfold char in *; lia.
Qed.

(** ** Pieces of text *)

Lemma slice_trimmed : forall s a b, 
  trimmed s a b (py_slice (Some (Z.of_nat a)) (Some (zlen s - Z.of_nat b)) s)
  \/ (length s < b)%nat.
Proof.
  intros s a b. destruct (le_lt_dec b (length s)) as [Hb|Hb]; [left|right; exact Hb].
  unfold py_slice, zlen, clamp_bound.
  replace (Z.of_nat a <? 0) with false by lia.
  replace (Z.of_nat (length s) - Z.of_nat b <? 0) with false by lia.
  destruct (le_lt_dec (a + b) (length s)) as [H|H].
  - left. rewrite !Z.min_l, !Z.max_r by lia.
    replace (Z.to_nat (Z.of_nat (length s) - Z.of_nat b - Z.of_nat a))
      with (length s - b - a)%nat by lia.
    rewrite Nat2Z.id.
    exists (firstn a s), (skipn (length s - b - a) (skipn a s)).
    rewrite firstn_skipn, firstn_skipn. split; [reflexivity|].
    rewrite firstn_length, !skipn_length. lia.
  - right. split; [lia|].
    replace (Z.to_nat _) with O; [reflexivity|]. lia.
Qed.

Lemma trim_even : forall fmt s nb b n, decimal b -> Z.max 0 (numeral_value nb b) = Z.of_nat n ->
  exists t, run_op fmt "TM" [PScal s; PScal (numeral nb b)] = ret (PScal t) /\ trimmed s n n t.
Proof.
  intros fmt s nb b n Db E. eexists. split.
  - run_plain. unfold op_TRIM, trim1.
    rewrite <- (app_nil_r (numeral nb b)), NumProof.scalar_int_numeral, Z.max_comm, E by (auto; exact I).
    reflexivity.
  - destruct (slice_trimmed s n n) as [T|T]; [exact T|].
    right. split; [lia|]. unfold py_slice, clamp_bound, zlen.
    replace (Z.of_nat n <? 0) with false by lia.
    replace (Z.of_nat (length s) - Z.of_nat n <? 0) with true by lia.
    replace (Z.to_nat (_ - _)) with O; [reflexivity|]. lia.
Qed.

Lemma trim_one : forall fmt s, exists t,
  run_op fmt "TM" [PScal s] = ret (PScal t) /\ trimmed s 1 1 t.
Proof.
  intros fmt s. eexists. split; [run_plain; reflexivity|].
  change 1 with (Z.of_nat 1) at 1.
  change (Z.max 1 0) with (Z.of_nat 1).
  destruct (slice_trimmed s 1 1) as [T|T]; [exact T|].
  destruct s; [|cbn in T; lia]. right. split; [cbn; lia|reflexivity].
Qed.

Lemma trim_range : forall fmt s a b, (b <= length s)%nat ->
  exists t, run_op fmt "TM" [PScal s; PRange (Some (Z.of_nat a)) (Some (Z.of_nat b))] = ret (PScal t)
    /\ trimmed s a b t.
Proof.
  intros fmt s a b Hb. eexists. split.
  - run_plain. unfold op_TRIM, trim1. cbn [lower0].
    rewrite !Z.max_l by lia. reflexivity.
  - destruct (slice_trimmed s a b) as [T|T]; [exact T|lia].
Qed.

Lemma cls_in_In : forall x c, cls_in x c = true <-> In c x.
Proof.
  intros x c. unfold cls_in. rewrite existsb_exists. split.
  - intros (y & Hy & E). apply N.eqb_eq in E. subst. exact Hy.
  - intro H. exists c. split; [exact H|apply N.eqb_refl].
Qed.

Lemma delete_chars : forall fmt s x, exists t,
  run_op fmt "DC" [PScal s; PScal x] = ret (PScal t) /\ without x s t.
Proof.
  intros fmt s x. eexists. split; [run_plain; reflexivity|].
  induction s as [|c s IH]; cbn [filter]; [constructor|].
  destruct (cls_in x c) eqn:E; cbn [negb].
  - apply without_drop; [apply cls_in_In, E|exact IH].
  - apply without_keep; [|exact IH]. intro H. apply cls_in_In in H. congruence.
Qed.

Lemma wrap_text : forall fmt s o,
  run_op fmt "WR" [PScal s; PScal o] = ret (PScal (o ++ s ++ o)).
Proof.
  intros fmt s o. run_plain. unfold op_WRAP. cbn [op_CAT]. rewrite bind_ret. cbn [op_CAT].
  rewrite <- app_assoc. reflexivity.
Qed.

Lemma join_wrap : forall fmt ss x,
  run_op fmt "JW" [PList (map PScal ss); PScal x]
  = ret (PScal (x ++ concat (map (fun s => s ++ x) ss))).
Proof.
  intros fmt ss x. run_plain. cbn [op_JOINWRAP]. unfold joinwrap1.
  change (p_iter (PList (map PScal ss))) with (Val (map PScal ss)).
  cbn [is_iterable]. change (lift (Val (map PScal ss))) with (ret (map PScal ss)).
  rewrite bind_ret.
  assert (H : forall acc, foldM (fun acc x0 =>
      do item <- (if is_list_or_range x0 then op_JOIN x0 (Some (PScal x)) else ret x0);
      do r <- op_CAT acc item; op_CAT r (PScal x)) (PScal acc) (map PScal ss)
    = ret (PScal (acc ++ concat (map (fun s => s ++ x) ss)))).
  { induction ss as [|s ss IH]; intro acc; cbn [map foldM concat].
    - rewrite app_nil_r. reflexivity.
    - cbn [is_list_or_range]. rewrite !bind_ret. cbn [op_CAT]. rewrite !bind_ret.
      cbn [op_CAT]. rewrite ?bind_ret. rewrite IH. rewrite <- !app_assoc. reflexivity. }
  apply H.
Qed.

(** ** Transliteration *)

Lemma tr_mapping_chars : forall l,
  tr_mapping (map (fun p => (inr (fst p), inr (snd p))) l)
  = ret (map (fun p => (NI (Z.of_N (fst p)), Some (NI (Z.of_N (snd p))))) l).
Proof.
  induction l as [|[a b] l IH]; [reflexivity|]. cbn [map tr_mapping fst snd].
  rewrite IH, bind_ret. reflexivity.
Qed.

Lemma combine_map_inr : forall (a b : list char),
  combine (map (@inr pval char) a) (map (@inr pval char) b)
  = map (fun p => (inr (fst p), inr (snd p))) (combine a b).
Proof.
  induction a as [|x a IH]; intros [|y b]; cbn; try reflexivity. f_equal. apply IH.
Qed.

Definition last_of (l : list (char * char)) (c : char) (acc : option char) : option char :=
  fold_left (fun acc p => if N.eqb (fst p) c then Some (snd p) else acc) l acc.

Lemma lookup_last : forall l (c : char) (acc : option char),
  fold_left (fun acc p => if num_eqb (fst p) (NI (Z.of_N c)) then Some (snd p) else acc)
    (map (fun p : char * char => (NI (Z.of_N (fst p)), Some (NI (Z.of_N (snd p))))) l)
    (option_map (fun d : char => Some (NI (Z.of_N d))) acc)
  = option_map (fun d : char => Some (NI (Z.of_N d))) (last_of l c acc).
Proof.
  unfold last_of. induction l as [|[a b] l IH]; intros c acc; [reflexivity|].
  cbn [map fold_left fst snd]. rewrite NumCmp.num_eqb_NI.
  replace (Z.of_N a =? Z.of_N c) with (N.eqb a c) by lia.
  rewrite <- IH. destruct (N.eqb a c); reflexivity.
Qed.

Lemma last_of_spec : forall (old new : str) (c : char) (acc : option char),
  match last_of (combine old new) c acc with
  | Some d => (exists i, nth_error old i = Some c /\ nth_error new i = Some d
                 /\ forall j, (i < j)%nat -> (j < length new)%nat -> nth_error old j <> Some c)
              \/ acc = Some d /\ (forall j, (j < length new)%nat -> nth_error old j <> Some c)
  | None => acc = None /\ forall j, (j < length new)%nat -> nth_error old j <> Some c
  end.
Proof.
  induction old as [|a old IH]; intros new c acc.
  - cbn. destruct acc; [right|]; split; auto; intros j _; destruct j; discriminate.
  - destruct new as [|b new].
    + cbn. destruct acc; [right|]; split; auto; intros j H; cbn in H; lia.
    + cbn [combine last_of fold_left fst snd].
      specialize (IH new c (if N.eqb a c then Some b else acc)). unfold last_of in IH |- *.
      destruct (fold_left _ (combine old new) _) as [d|].
      * destruct IH as [(i & H1 & H2 & H3)|[H1 H2]].
        -- left. exists (S i). repeat split; auto. intros j Hj Hn.
           destruct j as [|j]; [lia|]. cbn [nth_error length] in *. apply H3; lia.
        -- destruct (N.eqb_spec a c) as [->|Hne].
           ++ left. exists O. injection H1 as ->. repeat split; auto.
              intros j Hj Hn. destruct j as [|j]; [lia|]. cbn [nth_error length] in *. apply H2; lia.
           ++ right. split; [exact H1|]. intros [|j] Hj; cbn [nth_error length] in *;
                [congruence|apply H2; lia].
      * destruct IH as [H1 H2]. destruct (N.eqb_spec a c) as [->|Hne]; [discriminate|].
        split; [exact H1|]. intros [|j] Hj; cbn [nth_error length] in *; [congruence|apply H2; lia].
Qed.

Lemma transliterate_text : forall fmt (s old new : str),
  Forall (fun c : char => (c <= 1114111)%N) new ->
  exists t, run_op fmt "TR" [PScal s; PScal old; PScal new] = ret (PScal t)
    /\ Forall2 (translated old new) s t.
Proof.
  intros fmt s old new Hn.
  set (pick := fun c => match last_of (combine old new) c None with Some d => d | None => c end).
  exists (map pick s). split.
  - run_plain. cbn [op_TRANSLITERATE is_iterable andb]. unfold translit1, tr_size.
    cbn [infinite p_is_finite negb tr_items]. unfold infinite. cbn [p_is_finite negb].
    rewrite combine_map_inr, tr_mapping_chars, bind_ret.
    set (m := map (fun p : char * char => (NI (Z.of_N (fst p)), Some (NI (Z.of_N (snd p))))) (combine old new)).
    assert (R : mapR (tr_char m) s = Val (map (fun c => [pick c]) s)).
    { induction s as [|c s IH]; [reflexivity|]. cbn [mapR map].
      assert (C : tr_char m c = Val [pick c]).
      { unfold tr_char, tr_lookup, m. pose proof (lookup_last (combine old new) c None) as L.
        cbn [option_map] in L. rewrite L. unfold pick.
        pose proof (last_of_spec old new c None) as LS.
        destruct (last_of (combine old new) c None) as [d|]; [|reflexivity].
        cbn [option_map]. destruct LS as [(i & _ & H & _)|[H _]]; [|discriminate].
        apply nth_error_In in H. rewrite Forall_forall in Hn. specialize (Hn d H).
        replace ((0 <=? Z.of_N d) && (Z.of_N d <=? 1114111)) with true by (unfold char in *; lia).
        rewrite N2Z.id. reflexivity. }
      rewrite C. cbn [rbind]. rewrite IH. reflexivity. }
    change (bind (lift (mapR (tr_char m) s)) (fun r => ret (PScal (concat r)))
            = ret (PScal (map pick s))).
    rewrite R.
    change (ret (PScal (concat (map (fun c => [pick c]) s))) = ret (PScal (map pick s))).
    change (map (fun c => [pick c]) s) with (map (fun c => (fun d => [d]) (pick c)) s).
    rewrite <- (map_map pick (fun d => [d])), ListProof.concat_chars. reflexivity.
  - apply Forall2_map. intro c. unfold translated, pick.
    pose proof (last_of_spec old new c None) as LS.
    destruct (last_of (combine old new) c None) as [d|].
    + destruct LS as [LS|[LS _]]; [left; exact LS|discriminate].
    + right. split; [apply LS|reflexivity].
Qed.

(** ** Replacing items *)

Lemma skip_past : forall {A} (u : list A) c v, skipn (S (length u)) (u ++ c :: v) = v.
Proof. intros A u c v. induction u as [|x u IH]; [reflexivity|exact IH]. Qed.
Lemma take_front : forall {A} (u v : list A), firstn (length u) (u ++ v) = u.
Proof. intros A u v. induction u as [|x u IH]; cbn; [reflexivity|f_equal; exact IH]. Qed.
Lemma skip_front : forall {A} (u v : list A), skipn (length u) (u ++ v) = v.
Proof. intros A u v. induction u as [|x u IH]; [reflexivity|exact IH]. Qed.

Lemma setitem_replaced : forall fmt p z q p', replaced_at fmt p z q p' ->
  p_setitem fmt p (IInt z) q = Val p'.
Proof.
  intros fmt p z q p' [s1 c s2 z' q' E|l1 x l2 z' q' E]; cbn [p_setitem]; unfold zlen; rewrite E, Nat2Z.id.
  - rewrite take_front, skip_past. destruct s1; reflexivity.
  - unfold set_nth. rewrite take_front, skip_past. destruct l1; reflexivity.
Qed.

Lemma replaced_iterable : forall fmt p z q p', replaced_at fmt p z q p' ->
  is_iterable p = true /\ is_block p = false /\ is_iterable p' = true.
Proof. intros fmt p z q p' []; repeat split; reflexivity. Qed.

Lemma replaceat_index : forall fmt p i z q p', index_text i z -> replaced_at fmt p z q p' ->
  op_REPLACEAT fmt i p q = ret p'.
Proof.
  intros fmt p i z q p' (n & ds & D & -> & <-) R. cbn [op_REPLACEAT].
  rewrite (proj1 (replaced_iterable _ _ _ _ _ R)).
  rewrite <- (app_nil_r (numeral n ds)), NumProof.scalar_int_numeral by (auto; exact I).
  rewrite (setitem_replaced _ _ _ _ _ R). reflexivity.
Qed.

Lemma index_not_block : forall i z, index_text i z -> is_block i = false.
Proof. intros i z (n & ds & _ & -> & _). reflexivity. Qed.

Lemma run_ra : forall fmt p i q, is_block p = false -> is_block i = false -> is_block q = false ->
  run_op fmt "RA" [p; i; q] = op_REPLACEAT fmt i p q.
Proof.
  intros fmt p i q H1 H2 H3. find_op. rewrite apply_op_plain.
  - reflexivity.
  - cbn [existsb]. rewrite H1, H2, H3. apply andb_false_r.
  - destruct p, i, q; reflexivity.
Qed.

Lemma replace_at : forall fmt p i z q p', index_text i z -> replaced_at fmt p z q p' ->
  is_block q = false -> run_op fmt "RA" [p; i; q] = ret p'.
Proof.
  intros fmt p i z q p' Hi R Hq. rewrite run_ra; auto.
  - eapply replaceat_index; eauto.
  - apply (replaced_iterable _ _ _ _ _ R).
  - eapply index_not_block; eauto.
Qed.

Lemma in_turn_block : forall fmt pick k p zs p', replaced_in_turn fmt pick k p zs p' ->
  zs <> [] -> is_block p = false.
Proof.
  intros fmt pick k p zs p' [k' p0|k' p0 z zs' p1 p2 R _] Hz; [contradiction|].
  apply (replaced_iterable _ _ _ _ _ R).
Qed.

Lemma replace_each : forall fmt p ix zs q p', Forall2 index_text ix zs ->
  (forall l, q <> PList l) -> is_block q = false -> is_iterable p = true -> is_block p = false ->
  replaced_in_turn fmt (fun _ => q) 0 p zs p' ->
  run_op fmt "RA" [p; PList ix; q] = ret p'.
Proof.
  intros fmt p ix zs q p' Hix Hq Bq Ip Bp R. rewrite run_ra by auto. clear Bp.
  cbn [op_REPLACEAT]. rewrite Ip.
  destruct q as [| |l| | |]; try (exfalso; eapply Hq; reflexivity).
  all: clear Hq; generalize dependent O; intros k R; revert k p p' Ip R;
    induction Hix as [|i z ix zs Hi Hix IH]; intros k p p' Ip R;
    inversion R as [? ?|? ? ? ? p1 ? R1 R2]; subst; [reflexivity|];
    rewrite (replaceat_index _ _ _ _ _ _ Hi R1), bind_ret;
    eapply IH; [apply (replaced_iterable _ _ _ _ _ R1)|exact R2].
Qed.

(** The value at index [k] of a non-empty List, going around. *)
Lemma seq_index_cycle : forall (l : list pval) k, l <> [] ->
  seq_index l (Z.of_nat k) = Some (nth (k mod length l) l PNil).
Proof.
  intros l k Hl. unfold seq_index. destruct l as [|x l]; [contradiction|].
  unfold znth, zlen. rewrite <- Nat2Z.inj_mod.
  replace (Z.of_nat _ <? 0) with false by lia. rewrite Nat2Z.id.
  apply nth_error_nth'. apply Nat.mod_upper_bound. discriminate.
Qed.

Lemma replace_pairs : forall fmt p ix zs ns p', Forall2 index_text ix zs ->
  ns <> [] -> is_iterable p = true -> is_block p = false ->
  replaced_in_turn fmt (fun k => nth (k mod length ns) ns PNil) 0 p zs p' ->
  run_op fmt "RA" [p; PList ix; PList ns] = ret p'.
Proof.
  intros fmt p ix zs ns p' Hix Hn Ip Bp R. rewrite run_ra by auto. clear Bp.
  cbn [op_REPLACEAT]. rewrite Ip. change 0 with (Z.of_nat 0). revert R.
  generalize O. intros k R. revert k p p' Ip R.
  induction Hix as [|i z ix zs Hi Hix IH]; intros k p p' Ip R;
    inversion R as [? ?|? ? ? ? p1 ? R1 R2]; subst; [reflexivity|].
  rewrite seq_index_cycle by exact Hn. cbn [of_option].
  match goal with |- context [lift (Val ?x)] => change (lift (Val x)) with (ret x) end.
  rewrite bind_ret.
  rewrite (replaceat_index _ _ _ _ _ _ Hi R1), bind_ret.
  replace (Z.of_nat k + 1) with (Z.of_nat (S k)) by lia.
  eapply IH; [apply (replaced_iterable _ _ _ _ _ R1)|exact R2].
Qed.

Lemma set_slice_mid : forall {A} (u m w new : list A),
  set_slice (u ++ m ++ w) (Some (Z.of_nat (length u))) (Some (Z.of_nat (length (u ++ m)))) new
  = u ++ new ++ w.
Proof.
  intros A u m w new. unfold set_slice, clamp_bound, zlen.
  rewrite !app_length.
  replace (Z.of_nat (length u) <? 0) with false by lia.
  replace (Z.of_nat (length u + length m) <? 0) with false by lia.
  replace (Z.to_nat (Z.max 0 (Z.min (Z.of_nat (length u)) (Z.of_nat (length u + (length m + length w))))))
    with (length u) by lia.
  replace (Z.to_nat _) with (length (u ++ m)) by (rewrite app_length; lia).
  rewrite take_front, (app_assoc u m w), skip_front. reflexivity.
Qed.

Lemma replace_slice : forall fmt,
  (forall u m w q, is_block q = false ->
     run_op fmt "RA" [PScal (u ++ m ++ w);
                      PRange (Some (Z.of_nat (length u))) (Some (Z.of_nat (length (u ++ m)))); q]
     = ret (PScal (u ++ p_str fmt q ++ w)))
  /\ (forall u m w q l, elems q l ->
     run_op fmt "RA" [PList (u ++ m ++ w);
                      PRange (Some (Z.of_nat (length u))) (Some (Z.of_nat (length (u ++ m)))); q]
     = ret (PList (u ++ l ++ w))).
Proof.
  intro fmt. split.
  - intros u m w q Hq. rewrite run_ra by auto. cbn [op_REPLACEAT is_iterable p_setitem].
    rewrite set_slice_mid. reflexivity.
  - intros u m w q l E. rewrite run_ra; auto; [|destruct E; reflexivity].
    cbn [op_REPLACEAT is_iterable p_setitem].
    assert (P : p_list q = Val l).
    { rewrite <- (SeqProof.elems_p_iter _ _ E). destruct E; reflexivity. }
    rewrite P. cbn [rbind]. rewrite set_slice_mid. reflexivity.
Qed.

(** ** Columns *)

Lemma mapR_chars : forall lines, mapR p_iter (map PScal lines) = Val (map chars lines).
Proof.
  induction lines as [|l lines IH]; [reflexivity|]. cbn [map mapR]. cbn [p_iter rbind].
  rewrite IH. reflexivity.
Qed.

Lemma column_row : forall lines i,
  map (fun col => nth i col (PScal [c_space])) (map chars lines) = chars (column lines i).
Proof.
  intros lines i. unfold column, chars. rewrite !map_map. apply map_ext. intro l.
  destruct (nth_error l i) as [c|] eqn:E.
  - apply nth_error_nth. rewrite nth_error_map. unfold char in *. rewrite E. reflexivity.
  - apply nth_overflow. rewrite map_length. apply nth_error_None. exact E.
Qed.

Lemma columns_max : forall lines,
  fold_right (fun l m => Nat.max (length l) m) O (map chars lines) = list_max (map (@length char) lines).
Proof.
  induction lines as [|l lines IH]; [reflexivity|].
  cbn [map fold_right list_max]. unfold chars at 1. rewrite map_length, IH. reflexivity.
Qed.

Lemma mapM_all_ret : forall {A B} (f : A -> pm B) (g : A -> B) l,
  (forall x, In x l -> f x = ret (g x)) -> mapM f l = ret (map g l).
Proof.
  intros A B f g l. induction l as [|x l IH]; intro H; [reflexivity|].
  cbn [mapM map]. rewrite (H x (or_introl eq_refl)), bind_ret.
  rewrite IH by (intros; apply H; right; assumption). reflexivity.
Qed.

Lemma zip_join : forall fmt lines,
  run_op fmt "ZJ" [PList (map PScal lines)]
  = ret (PList (map (fun i => PScal (column lines i))
                    (seq 0 (list_max (map (@length char) lines))))).
Proof.
  intros fmt lines. run_plain. cbn [op_ZIPJOIN1].
  change (lift (p_iter (PList (map PScal lines)))) with (ret (map PScal lines)). rewrite bind_ret.
  unfold zip_join_lines.
  assert (E : map (fun v => if is_iterable v then v else PScal (p_str FmtNone v)) (map PScal lines)
              = map PScal lines) by (rewrite map_map; apply map_ext; reflexivity).
  rewrite E. unfold zip_longest. rewrite mapR_chars.
  change (lift (Val (map chars lines))) with (ret (map chars lines)). rewrite bind_ret.
  cbv zeta. rewrite bind_ret, columns_max. unfold transpose.
  rewrite (mapM_all_ret (join_list None) (fun row => PScal (match row with [] => [] | _ =>
             concat (map (fun v => match v with PScal s => s | _ => [] end) row) end))).
  - rewrite bind_ret, map_map. do 2 f_equal. apply map_ext. intro i. rewrite column_row.
    unfold chars. rewrite map_map.
    destruct (column lines i) as [|c s] eqn:Ec; [reflexivity|]. cbn [map].
    f_equal. change (concat (map (fun x => [x]) (c :: s)) = c :: s). apply ListProof.concat_chars.
  - intros row H. apply in_map_iff in H. destruct H as (i & <- & _). rewrite column_row.
    rewrite ListProof.join_chars. do 2 f_equal. unfold chars. rewrite map_map.
    destruct (column lines i) as [|c s] eqn:Ec; [reflexivity|]. cbn [map].
    change (c :: s = concat (map (fun x => [x]) (c :: s))). symmetry. apply ListProof.concat_chars.
Qed.

(** ** Grids *)

Lemma grid_cells : forall (cell : Z -> Z -> pval) r c n m,
  Z.max 0 r = Z.of_nat n -> Z.max 0 c = Z.of_nat m ->
  grid_of n m (fun i j p => p = cell (Z.of_nat i) (Z.of_nat j))
    (PList (map (fun i => PList (map (cell i) (zseq 0 c))) (zseq 0 r))).
Proof.
  intros cell r c n m Hr Hc.
  exists (map (fun i => map (cell i) (zseq 0 c)) (zseq 0 r)). rewrite map_map.
  split; [reflexivity|]. rewrite map_length, SeqProof.zseq_length. split; [lia|].
  intros i row H. rewrite nth_error_map in H.
  destruct (nth_error (zseq 0 r) i) as [zi|] eqn:Ei; [|discriminate]. injection H as <-.
  assert (Li : (i < length (zseq 0 r))%nat) by (apply nth_error_Some; congruence).
  rewrite map_length, SeqProof.zseq_length. split; [lia|].
  intros j p H. rewrite nth_error_map in H.
  destruct (nth_error (zseq 0 c) j) as [zj|] eqn:Ej; [|discriminate]. injection H as <-.
  assert (Lj : (j < length (zseq 0 c))%nat) by (apply nth_error_Some; congruence).
  rewrite SeqProof.zseq_length in Li, Lj.
  assert (nth_error (zseq 0 r) i = Some (Z.of_nat i)).
  { rewrite SeqProof.zseq_nth by lia. reflexivity. }
  assert (nth_error (zseq 0 c) j = Some (Z.of_nat j)).
  { rewrite SeqProof.zseq_nth by lia. reflexivity. }
  congruence.
Qed.

Lemma int_text : forall v z, index_text v z -> exists t, v = PScal t /\ scalar_int t = z.
Proof.
  intros v z (n & ds & D & -> & <-). exists (numeral n ds). split; [reflexivity|].
  rewrite <- (app_nil_r (numeral n ds)). apply NumProof.scalar_int_numeral; auto.
Qed.

Lemma grids : forall fmt r c zr zc n m, index_text r zr -> index_text c zc ->
  Z.max 0 zr = Z.of_nat n -> Z.max 0 zc = Z.of_nat m ->
  (exists v, run_op fmt "ZG" [r; c] = ret v /\ grid_of n m (fun _ _ p => p = scal_Z 0) v)
  /\ (exists v, run_op fmt "OG" [r; c] = ret v /\ grid_of n m (fun _ _ p => p = scal_Z 1) v)
  /\ (exists v, run_op fmt "CG" [r; c] = ret v
        /\ grid_of n m (fun i j p => p = PList [scal_Z (Z.of_nat i); scal_Z (Z.of_nat j)]) v)
  /\ (exists v, run_op fmt "ZG" [r] = ret v /\ grid_of n n (fun _ _ p => p = scal_Z 0) v)
  /\ (exists v, run_op fmt "OG" [r] = ret v /\ grid_of n n (fun _ _ p => p = scal_Z 1) v)
  /\ (exists v, run_op fmt "CG" [r] = ret v
        /\ grid_of n n (fun i j p => p = PList [scal_Z (Z.of_nat i); scal_Z (Z.of_nat j)]) v)
  /\ (exists v, run_op fmt "EY" [r] = ret v
        /\ grid_of n n (fun i j p => i = j /\ p = scal_Z 1 \/ i <> j /\ p = scal_Z 0) v).
Proof.
  intros fmt r c zr zc n m Hr Hc Hn Hm.
  apply int_text in Hr. apply int_text in Hc. destruct Hr as (tr & -> & Er), Hc as (tc & -> & Ec).
  repeat split; eexists.
  1-6: (split; [run_plain; unfold op_ZEROGRID, op_ONEGRID, op_COORDINATEGRID, grid;
                rewrite ?Er, ?Ec; reflexivity|]).
  1: exact (grid_cells (fun _ _ => PScal (s_ "0")) _ _ _ _ Hn Hm).
  1: exact (grid_cells (fun _ _ => PScal (s_ "1")) _ _ _ _ Hn Hm).
  1: exact (grid_cells (fun r c => PList [scal_Z r; scal_Z c]) _ _ _ _ Hn Hm).
  1: exact (grid_cells (fun _ _ => PScal (s_ "0")) _ _ _ _ Hn Hn).
  1: exact (grid_cells (fun _ _ => PScal (s_ "1")) _ _ _ _ Hn Hn).
  1: exact (grid_cells (fun r c => PList [scal_Z r; scal_Z c]) _ _ _ _ Hn Hn).
  split; [run_plain; unfold op_IDENTITYMATRIX, grid; rewrite ?Er; reflexivity|].
  destruct (grid_cells (fun r c => PScal (if r =? c then s_ "1" else s_ "0")) _ _ _ _ Hn Hn)
    as (rows & E & L & H).
  exists rows. split; [exact E|]. split; [exact L|]. intros i row Hi.
  destruct (H i row Hi) as [Lr Hj]. split; [exact Lr|]. intros j p Hp.
  rewrite (Hj j p Hp). destruct (Z.eqb_spec (Z.of_nat i) (Z.of_nat j)).
  - left. split; [lia|reflexivity].
  - right. split; [lia|reflexivity].
Qed.

(** ** Reflection in both directions *)

Lemma palindromized_eq : forall {A} (l : list A), palindromized l (l ++ tl (rev l)).
Proof.
  intros A l. destruct (rev l) as [|x r] eqn:E.
  - left. assert (l = []) by (rewrite <- (rev_involutive l), E; reflexivity). subst. auto.
  - right. exists (rev r), x.
    assert (L : l = rev r ++ [x]) by (rewrite <- (rev_involutive l), E; reflexivity).
    split; [exact L|]. rewrite rev_involutive. cbn [tl]. rewrite L, <- app_assoc. reflexivity.
Qed.
Lemma palindromized_det : forall {A} (l r r' : list A),
  palindromized l r -> palindromized l r' -> r = r'.
Proof.
  intros A l r r' [[E1 ->]|(a & x & E1 & ->)] [[E2 ->]|(b & y & E2 & ->)]; subst; auto.
  - destruct b; discriminate.
  - destruct a; discriminate.
  - apply app_inj_tail in E2. destruct E2 as [-> ->]. reflexivity.
Qed.

Lemma quad_op : forall (w : warning) (f : forall A, list A -> list A) l ts,
  (forall A B (g : A -> B) l, f B (map g l) = map g (f A l)) ->
  (forall x, In x (f pval l) -> In x l) ->
  Forall2 (fun v t => mirror w f v = ret t) l ts ->
  quad (mirror w f) (PList l) = ret (PList (f pval ts)).
Proof.
  intros w f l ts Nat_f Sub H. unfold quad. cbn [mirror p_list p_iter].
  change (lift (Val l)) with (ret l). rewrite !bind_ret.
  change (lift (p_iter (PList (f pval l)))) with (ret (f pval l)). rewrite bind_ret.
  set (g := fun v => match mirror w f v with (_, Val t) => t | _ => PNil end).
  assert (E : ts = map g l).
  { clear Sub. induction H as [|v t l ts Hv H IH]; [reflexivity|]. cbn [map]. f_equal; [|exact IH].
    unfold g. rewrite Hv. reflexivity. }
  assert (M : forall x, In x (f pval l) -> In x l -> mirror w f x = ret (g x)).
  { intros x _ Hx. clear E Sub. unfold g. induction H as [|v t l ts Hv H IH]; [destruct Hx|].
    destruct Hx as [<-|Hx]; [rewrite Hv; reflexivity|auto]. }
  subst ts. rewrite Nat_f.
  rewrite (mapM_all_ret (mirror w f) g); [|intros x Hx; apply M; auto].
  reflexivity.
Qed.

Lemma run_quad : forall fmt l, 
  run_op fmt "QR" [PList l] = op_QUADREFLECT (PList l)
  /\ run_op fmt "QP" [PList l] = op_QUADPALINDROMIZE (PList l).
Proof. intros fmt l. split; run_plain; reflexivity. Qed.

Lemma Forall2_of : forall {A B} (R : A -> B -> Prop) (g : A -> pval) (h : B -> pval)
    (P : pval -> pval -> Prop) l ts,
  Forall2 R l ts -> (forall a b, R a b -> P (g a) (h b)) -> Forall2 P (map g l) (map h ts).
Proof. intros A B R g h P l ts H K. induction H; cbn; constructor; auto. Qed.

Lemma reflect_natural : forall A B (g : A -> B) l, map g l ++ rev (map g l) = map g (l ++ rev l).
Proof. intros. rewrite map_app, map_rev. reflexivity. Qed.
Lemma tl_map : forall A B (g : A -> B) l, tl (map g l) = map g (tl l).
Proof. intros A B g [|x l]; reflexivity. Qed.
Lemma palin_natural : forall A B (g : A -> B) l,
  map g l ++ tl (rev (map g l)) = map g (l ++ tl (rev l)).
Proof. intros. rewrite map_app, <- map_rev, tl_map. reflexivity. Qed.
Lemma reflect_sub : forall (l : list pval) x, In x (l ++ rev l) -> In x l.
Proof. intros l x H. apply in_app_iff in H. destruct H as [H|H]; [exact H|]. apply in_rev, H. Qed.
Lemma palin_sub : forall (l : list pval) x, In x (l ++ tl (rev l)) -> In x l.
Proof.
  intros l x H. apply in_app_iff in H. destruct H as [H|H]; [exact H|].
  apply in_rev. destruct (rev l); [destruct H|right; exact H].
Qed.

Lemma quad_reflect : forall fmt,
  (forall ss ts, Forall2 reflected ss ts ->
     run_op fmt "QR" [PList (map PScal ss)] = ret (PList (map PScal (ts ++ rev ts))))
  /\ (forall ls ts, Forall2 reflected ls ts ->
     run_op fmt "QR" [PList (map PList ls)] = ret (PList (map PList (ts ++ rev ts)))).
Proof.
  intro fmt. split; intros ss ts H; rewrite (proj1 (run_quad fmt _)); unfold op_QUADREFLECT.
  - unfold op_REFLECT at 1. rewrite (quad_op _ _ _ (map PScal ts)).
    + rewrite reflect_natural. reflexivity.
    + apply reflect_natural.
    + apply reflect_sub.
    + eapply Forall2_of; [exact H|]. intros a b ->. reflexivity.
  - unfold op_REFLECT at 1. rewrite (quad_op _ _ _ (map PList ts)).
    + rewrite reflect_natural. reflexivity.
    + apply reflect_natural.
    + apply reflect_sub.
    + eapply Forall2_of; [exact H|]. intros a b ->. reflexivity.
Qed.

Lemma quad_palindromize : forall fmt,
  (forall ss ts r, Forall2 palindromized ss ts -> palindromized ts r ->
     run_op fmt "QP" [PList (map PScal ss)] = ret (PList (map PScal r)))
  /\ (forall ls ts r, Forall2 palindromized ls ts -> palindromized ts r ->
     run_op fmt "QP" [PList (map PList ls)] = ret (PList (map PList r))).
Proof.
  intro fmt. split; intros ss ts r H Hr; rewrite (proj2 (run_quad fmt _));
    unfold op_QUADPALINDROMIZE; rewrite <- (palindromized_det _ _ _ (palindromized_eq ts) Hr).
  - unfold op_PALINDROMIZE at 1. rewrite (quad_op _ _ _ (map PScal ts)).
    + rewrite palin_natural. reflexivity.
    + apply palin_natural.
    + apply palin_sub.
    + eapply Forall2_of; [exact H|]. intros a b R.
      rewrite <- (palindromized_det _ _ _ (palindromized_eq a) R). reflexivity.
  - unfold op_PALINDROMIZE at 1. rewrite (quad_op _ _ _ (map PList ts)).
    + rewrite palin_natural. reflexivity.
    + apply palin_natural.
    + apply palin_sub.
    + eapply Forall2_of; [exact H|]. intros a b R.
      rewrite <- (palindromized_det _ _ _ (palindromized_eq a) R). reflexivity.
Qed.

(** ** Building Lists *)

Lemma listed_p_list : forall v l, listed v l ->
  is_list_or_range (enlist_atom v) = true /\ p_list (enlist_atom v) = Val l /\ is_block v = false.
Proof.
  intros v l [s|r f| |l'|lo u l' E]; repeat split; try reflexivity.
  cbn [enlist_atom]. change (p_list (PRange lo (Some u))) with (p_iter (PRange lo (Some u))).
  apply SeqProof.elems_p_iter, E.
Qed.

Lemma run_two_plain : forall fmt text f a b,
  op_by_arity 2 (s_ text) = Some f ->
  f_range_each (o_flags f) = false -> f_list_each (o_flags f) = false ->
  is_block a = false -> is_block b = false ->
  run_op fmt text [a; b] = call_pure fmt f [a; b].
Proof.
  intros fmt text f a b H1 H2 H3 H4 H5. unfold run_op. cbn [List.length]. rewrite H1.
  apply apply_op_plain.
  - cbn [existsb]. rewrite H4, H5. apply andb_false_r.
  - destruct a, b; cbn [existsb expands]; rewrite ?H2, ?H3; reflexivity.
Qed.

Ltac two := erewrite run_two_plain;
  [|vm_compute; reflexivity|reflexivity|reflexivity|assumption|assumption];
  unfold call_pure; cbn [o_fun pure_fun pure2].

Lemma append_elem : forall fmt a l x, listed a l -> is_block x = false ->
  run_op fmt "AE" [a; x] = ret (PList (l ++ [x]))
  /\ run_op fmt "PE" [a; x] = ret (PList (x :: l)).
Proof.
  intros fmt a l x H Hx. destruct (listed_p_list a l H) as (H1 & H2 & H3).
  split; two; unfold op_APPENDELEM, op_PREPENDELEM; cbv zeta; rewrite H1, H2;
    change (lift (Val l)) with (ret l); rewrite bind_ret; reflexivity.
Qed.

Lemma append_list : forall fmt a l b m, listed a l -> listed b m ->
  run_op fmt "AL" [a; b] = ret (PList (l ++ m)).
Proof.
  intros fmt a l b m H K. destruct (listed_p_list a l H) as (H1 & H2 & H3).
  destruct (listed_p_list b m K) as (K1 & K2 & K3).
  two. unfold op_APPENDLIST. cbv zeta. rewrite H1, H2, K1, K2. cbn [andb].
  change (lift (Val l)) with (ret l). change (lift (Val m)) with (ret m).
  rewrite !bind_ret. reflexivity.
Qed.

(** ** Ranges that include their end, and lengths *)

Lemma incl_range : forall fmt a b za zb, index_text a za -> index_text b zb ->
  exists v, run_op fmt "\," [a; b] = ret v
    /\ elems v (map (fun i => PScal (str_of_Z i)) (ints_from za (Z.to_nat (zb + 1 - za)))).
Proof.
  intros fmt a b za zb Ha Hb.
  apply int_text in Ha. apply int_text in Hb. destruct Ha as (ta & -> & Ea), Hb as (tb & -> & Eb).
  eexists. split.
  - run_plain. unfold op_INCLRANGE, bound_of. rewrite Ea, Eb. reflexivity.
  - exact (elems_range (Some za) (zb + 1)).
Qed.

Lemma incl_range_to : forall fmt b zb, index_text b zb ->
  exists v, run_op fmt "\," [b] = ret v
    /\ elems v (map (fun i => PScal (str_of_Z i)) (ints_from 1 (Z.to_nat zb))).
Proof.
  intros fmt b zb Hb. apply int_text in Hb. destruct Hb as (tb & -> & Eb).
  eexists. split.
  - run_plain. unfold op_INCLRANGETO, bound_of. rewrite Eb. reflexivity.
  - pose proof (elems_range (Some 1) (zb + 1)) as H. cbv beta iota zeta in H.
    replace (zb + 1 - 1) with zb in H by lia. exact H.
Qed.

Lemma endless_incl : forall fmt a za, index_text a za ->
  run_op fmt "\," [a; PNil] = ret (PRange (Some za) None)
  /\ run_op fmt "\," [PNil] = ret (PRange (Some 1) None).
Proof.
  intros fmt a za Ha. apply int_text in Ha. destruct Ha as (ta & -> & Ea).
  split; run_plain; [|reflexivity].
  unfold op_INCLRANGE, bound_of. rewrite Ea. reflexivity.
Qed.

Lemma length_facts : forall v n, has_length v n ->
  is_block v = false /\ is_iterable v = true
  /\ match n with
     | Some k => p_len v = Val (Z.of_nat k) /\ infinite v = false
     | None => (exists e, p_len v = Exn e) /\ infinite v = true /\ is_range v = true
     end.
Proof.
  intros v n [v' l E|lo].
  - split; [destruct E; reflexivity|]. split; [eapply SeqProof.elems_iterable, E|].
    split; [exact (SeqProof.elems_len _ _ E)|]. destruct E; reflexivity.
  - repeat split; try reflexivity. eexists. reflexivity.
Qed.

Lemma compare_lengths : forall fmt a m b n, has_length a m -> has_length b n ->
  run_op fmt "#<" [a; b] = ret (truth (shorter m n))
  /\ run_op fmt "#>" [a; b] = ret (truth (shorter n m))
  /\ run_op fmt "#=" [a; b] = ret (truth (same_length m n)).
Proof.
  intros fmt a m b n Ha Hb.
  destruct (length_facts a m Ha) as (Ba & Ia & La), (length_facts b n Hb) as (Bb & Ib & Lb).
  repeat split; two; unfold op_LENLESS, op_LENGREATER, op_LENEQUAL; rewrite Ia, Ib; cbn [andb];
    destruct m as [m|], n as [n|];
    repeat match goal with
    | H : _ /\ _ |- _ => destruct H
    | H : exists _, _ |- _ => destruct H
    end;
    repeat match goal with
    | H : p_len _ = _ |- _ => rewrite H
    | H : infinite _ = _ |- _ => rewrite H
    | H : is_range _ = _ |- _ => rewrite H
    end;
    cbn [negb andb shorter same_length]; rewrite NumProof2.b2_truth; f_equal; f_equal; try lia.
  all: try (destruct (is_range a) eqn:?; cbn [negb]; rewrite ?NumProof2.b2_truth; reflexivity).
  all: destruct (is_range b); reflexivity.
Qed.
