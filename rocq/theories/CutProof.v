(** * Proofs for grouping and splitting at positions *)

From Coq Require Import String List NArith ZArith Bool Arith Lia Sorted.
From Verif Require Import PyStr PyRe PyNum Tokens OpFun OpTable Unparse PTypes
                          Ops OpsSeq Apply StrFacts NumFacts NumCmp Spec SpecRun SpecList
                          PFacts RunOp SeqProof SeqProof2 ListProof.
Import ListNotations.
Local Open Scope string_scope.
Local Open Scope list_scope.
Local Open Scope Z_scope.

(** [l[a:b]] for bounds inside the sequence. *)
Definition between {A} (l : list A) (a b : Z) : list A :=
  firstn (Z.to_nat (b - a)) (skipn (Z.to_nat a) l).

Lemma slice_inside : forall v l a b, elems v l -> 0 <= a -> 0 <= b -> b <= zlen l ->
  exists w, p_getitem v (ISlice (Some a) (Some b)) = Val w /\ elems w (between l a b).
Proof.
  intros v l a b E Ha Hb Hl. destruct l as [|x l].
  - assert (b = 0) by (unfold zlen in Hl; simpl in Hl; lia). subst b.
    unfold between. rewrite skipn_nil, firstn_nil. exists v. split; [|exact E].
    pose proof (elems_len _ _ E) as PL.
    destruct v as [s|r g|l'|lo [u|]|st r|]; try solve [inversion E]; cbn [p_getitem].
    + destruct s; [|inversion E]. rewrite seq_slice_nil. reflexivity.
    + inversion E; subst. rewrite seq_slice_nil. reflexivity.
    + cbn [p_len range_len] in PL. injection PL as PL. unfold range_is_empty.
      replace (u <=? lower0 lo) with true by (change (zlen (@nil pval)) with 0 in PL; lia). reflexivity.
  - destruct (p_getitem_slice v (x :: l) (Some a) (Some b) E) as (w & r & G & Er & W); [discriminate|].
    exists w. split; [exact G|].
    unfold from_end in W. replace (a <? 0) with false in W by lia.
    replace (b <? 0) with false in W by lia.
    rewrite (window_unique _ _ _ _ _ W (window_inside (x :: l) a b Ha Hl)) in Er. exact Er.
Qed.

Lemma slice_tail : forall v l a, elems v l -> 0 <= a -> a <= zlen l ->
  exists w, p_getitem v (ISlice (Some a) None) = Val w /\ elems w (between l a (zlen l)).
Proof.
  intros v l a E Ha Hl. destruct l as [|x l].
  - unfold between. rewrite skipn_nil, firstn_nil. exists v. split; [|exact E].
    pose proof (elems_len _ _ E) as PL.
    destruct v as [s|r g|l'|lo [u|]|st r|]; try solve [inversion E]; cbn [p_getitem].
    + destruct s; [|inversion E]. rewrite seq_slice_nil. reflexivity.
    + inversion E; subst. rewrite seq_slice_nil. reflexivity.
    + cbn [p_len range_len] in PL. injection PL as PL. unfold range_is_empty.
      replace (u <=? lower0 lo) with true by (change (zlen (@nil pval)) with 0 in PL; lia). reflexivity.
  - destruct (p_getitem_slice v (x :: l) (Some a) None E) as (w & r & G & Er & W); [discriminate|].
    exists w. split; [exact G|].
    unfold from_end in W. replace (a <? 0) with false in W by lia.
    rewrite (window_unique _ _ _ _ _ W (window_inside (x :: l) a _ Ha (Z.le_refl _))) in Er. exact Er.
Qed.

Lemma skipn_skipn : forall {A} (l : list A) n m, skipn n (skipn m l) = skipn (m + n) l.
Proof.
  intros A l n m. revert l. induction m as [|m IH]; intro l; [reflexivity|].
  destruct l as [|x l]; [rewrite !skipn_nil; reflexivity|]. apply IH.
Qed.

Lemma between_app : forall {A} (l : list A) a b c, 0 <= a <= b -> b <= c ->
  between l a b ++ between l b c = between l a c.
Proof.
  intros A l a b c H1 H2. unfold between.
  replace (Z.to_nat (c - a)) with (Z.to_nat (b - a) + Z.to_nat (c - b))%nat by lia.
  replace (skipn (Z.to_nat b) l) with (skipn (Z.to_nat (b - a)) (skipn (Z.to_nat a) l)).
  - generalize (skipn (Z.to_nat a) l), (Z.to_nat (b - a)), (Z.to_nat (c - b)).
    clear. intros l n m. revert l. induction n as [|n IH]; intros l; [reflexivity|].
    destruct l as [|x l]; [destruct m; reflexivity|]. cbn. f_equal. apply IH.
  - rewrite skipn_skipn. f_equal. lia.
Qed.

Lemma between_all : forall {A} (l : list A), between l 0 (zlen l) = l.
Proof.
  intros A l. unfold between, zlen. rewrite Z.sub_0_r, Nat2Z.id. apply firstn_all.
Qed.

Lemma between_length : forall {A} (l : list A) a b, 0 <= a -> b <= zlen l ->
  length (between l a b) = Z.to_nat (b - a).
Proof.
  intros A l a b Ha Hb. unfold between, zlen in *. rewrite firstn_length, skipn_length. lia.
Qed.

Lemma between_empty : forall {A} (l : list A) a b, b <= a -> between l a b = [].
Proof. intros A l a b H. unfold between. replace (Z.to_nat (b - a)) with O by lia. reflexivity. Qed.

(** ** C20 *)

Lemma pieces_up_int : forall n v l, elems v l -> 0 < n -> forall fuel i acc,
  0 <= i -> zlen l - i <= Z.of_nat fuel * n ->
  exists cs ls, pieces_up fuel v (zlen l) (NI n) (NI i) acc = ret (PList (rev acc ++ cs))
    /\ Forall2 elems cs ls /\ concat ls = between l i (zlen l)
    /\ Forall (fun c => 1 <= zlen c <= n) ls
    /\ (forall j c, nth_error ls j = Some c -> (S j < length ls)%nat -> zlen c = n).
Proof.
  intros n v l E Hn. induction fuel as [|f IH]; intros i acc Hi Hf;
    cbn [pieces_up]; rewrite num_ltb_NI.
  - replace (i <? zlen l) with false by lia. exists [], [].
    rewrite app_nil_r, between_empty by lia.
    split; [reflexivity|]. split; [constructor|]. split; [reflexivity|].
    split; [constructor|]. intros [|j] c H; discriminate.
  - destruct (i <? zlen l) eqn:Hlt.
    + unfold num_add. cbn [lift2]. rewrite bind_lift_val, num_ltb_NI.
      set (e := if zlen l <? i + n then zlen l else i + n).
      replace (if zlen l <? i + n then NI (zlen l) else NI (i + n)) with (NI e)
        by (unfold e; destruct (zlen l <? i + n); reflexivity).
      cbn [num_floor]. rewrite !bind_lift_val.
      assert (He : i < e <= zlen l) by (unfold e; destruct (zlen l <? i + n) eqn:?; lia).
      destruct (slice_inside v l i e E) as (w & G & Ew); [lia..|].
      rewrite G, bind_lift_val.
      destruct (IH (i + n) (w :: acc)) as (cs & ls & R & F & C & S & X); [lia..|].
      exists (w :: cs), (between l i e :: ls). split; [|split; [|split; [|split]]].
      * rewrite R. cbn [rev]. rewrite <- app_assoc. reflexivity.
      * constructor; assumption.
      * cbn [concat]. rewrite C. unfold e. destruct (zlen l <? i + n) eqn:Hb.
        -- rewrite (between_empty l (i + n)) by lia. apply app_nil_r.
        -- apply between_app; lia.
      * constructor; [|exact S]. unfold zlen at 1 2. rewrite between_length by lia.
        unfold e in *. destruct (zlen l <? i + n) eqn:Hb; lia.
      * intros [|j] c Hc Hj; cbn [nth_error] in Hc.
        -- injection Hc as <-. unfold zlen. rewrite between_length by lia.
           destruct ls as [|c0 ls]; [simpl in Hj; lia|].
           unfold e in *. destruct (zlen l <? i + n) eqn:Hb; [|lia].
           exfalso. rewrite between_empty in C by lia. inversion S; subst.
           destruct c0; [unfold zlen in *; simpl in *; lia|discriminate].
        -- apply (X j c Hc). simpl in Hj. lia.
    + exists [], []. rewrite app_nil_r, between_empty by lia.
      split; [reflexivity|]. split; [constructor|]. split; [reflexivity|].
      split; [constructor|]. intros [|j] c H; discriminate.
Qed.

Lemma pieces_down_int : forall n v l, elems v l -> 0 < n -> forall fuel i acc,
  i <= zlen l -> i <= Z.of_nat fuel * n ->
  exists cs ls, pieces_down fuel v (zlen l) (NI (- n)) (NI i) acc = ret (PList (rev acc ++ cs))
    /\ Forall2 elems cs ls /\ concat (rev ls) = between l 0 i
    /\ Forall (fun c => 1 <= zlen c <= n) ls
    /\ (forall j c, nth_error ls j = Some c -> (S j < length ls)%nat -> zlen c = n).
Proof.
  intros n v l E Hn. induction fuel as [|f IH]; intros i acc Hi Hf;
    cbn [pieces_down]; rewrite num_gtb_NI.
  - replace (i >? 0) with false by lia. exists [], [].
    rewrite app_nil_r, between_empty by lia.
    split; [reflexivity|]. split; [constructor|]. split; [reflexivity|].
    split; [constructor|]. intros [|j] c H; discriminate.
  - destruct (i >? 0) eqn:Hlt.
    + unfold num_add. cbn [lift2]. rewrite bind_lift_val, num_gtb_NI.
      set (e := if 0 >? i + - n then 0 else i + - n).
      replace (if 0 >? i + - n then NI 0 else NI (i + - n)) with (NI e)
        by (unfold e; destruct (0 >? i + - n); reflexivity).
      cbn [num_ceil]. rewrite !bind_lift_val.
      assert (He : 0 <= e < i) by (unfold e; destruct (0 >? i + - n) eqn:?; lia).
      destruct (slice_inside v l e i E) as (w & G & Ew); [lia..|].
      rewrite G, bind_lift_val.
      destruct (IH (i + - n) (w :: acc)) as (cs & ls & R & F & C & S & X); [lia..|].
      exists (w :: cs), (between l e i :: ls). split; [|split; [|split; [|split]]].
      * rewrite R. cbn [rev]. rewrite <- app_assoc. reflexivity.
      * constructor; assumption.
      * cbn [rev]. rewrite concat_app, C. cbn [concat]. rewrite app_nil_r.
        unfold e. destruct (0 >? i + - n) eqn:Hb.
        -- rewrite (between_empty l 0 (i + - n)) by lia. reflexivity.
        -- apply between_app; lia.
      * constructor; [|exact S]. unfold zlen. rewrite between_length by lia.
        unfold e in *. destruct (0 >? i + - n) eqn:Hb; lia.
      * intros [|j] c Hc Hj; cbn [nth_error] in Hc.
        -- injection Hc as <-. unfold zlen. rewrite between_length by lia.
           destruct ls as [|c0 ls]; [simpl in Hj; lia|].
           unfold e in *. destruct (0 >? i + - n) eqn:Hb; [|lia].
           exfalso. rewrite between_empty in C by lia. inversion S; subst.
           cbn [rev] in C. rewrite concat_app in C. apply app_eq_nil in C.
           destruct C as [_ C]. cbn [concat] in C. rewrite app_nil_r in C. subst c0.
           unfold zlen in *; simpl in *; lia.
        -- apply (X j c Hc). simpl in Hj. lia.
    + exists [], []. rewrite app_nil_r, between_empty by lia.
      split; [reflexivity|]. split; [constructor|]. split; [reflexivity|].
      split; [constructor|]. intros [|j] c H; discriminate.
Qed.

Lemma group_op : forall fmt v l n, elems v l -> n <> 0 ->
  exists cs ls, run_op fmt "<>" [v; scal_Z n] = ret (PList cs)
    /\ Forall2 elems cs ls
    /\ concat (if n <? 0 then rev ls else ls) = l
    /\ Forall (fun c => 1 <= zlen c <= Z.abs n) ls
    /\ (forall j c, nth_error ls j = Some c -> (S j < length ls)%nat -> zlen c = Z.abs n).
Proof.
  intros fmt v l n E Hn.
  assert (Ib : is_block v = false) by (eapply elems_not_block, E).
  assert (R : run_op fmt "<>" [v; scal_Z n] = group1 v (str_of_Z n)).
  { run_plain; [reflexivity|rewrite Ib; reflexivity|destruct v; reflexivity]. }
  assert (Fu : forall i, i <= zlen l ->
     i <= Z.of_nat (Z.to_nat (zlen l / Z.abs n + 1)) * Z.abs n).
  { intros i Hi. assert (0 <= zlen l) by (unfold zlen; lia).
    rewrite Z2Nat.id by (pose proof (Z.div_pos (zlen l) (Z.abs n)); lia).
    pose proof (Z.mul_succ_div_gt (zlen l) (Z.abs n)). lia. }
  rewrite R. unfold group1. rewrite (elems_iterable _ _ E), to_number_str.
  rewrite num_gtb_NI, num_ltb_NI, (elems_len _ _ E).
  destruct (n >? 0) eqn:Hp.
  - rewrite bind_lift_val. unfold piece_fuel.
    destruct (pieces_up_int n v l E ltac:(lia) (Z.to_nat (zlen l / Z.abs n + 1)) 0 [])
      as (cs & ls & G & F & C & S & X).
    + lia.
    + pose proof (Fu (zlen l - 0) ltac:(lia)). replace (Z.abs n) with n in * by lia. lia.
    + exists cs, ls. replace (Z.abs n) with n in * by lia. replace (n <? 0) with false by lia.
      rewrite between_all in C. auto.
  - replace (n <? 0) with true by lia. rewrite bind_lift_val. unfold piece_fuel.
    destruct (pieces_down_int (- n) v l E ltac:(lia) (Z.to_nat (zlen l / Z.abs n + 1)) (zlen l) [])
      as (cs & ls & G & F & C & S & X).
    + lia.
    + pose proof (Fu (zlen l) ltac:(lia)). replace (Z.abs n) with (- n) in * by lia. lia.
    + exists cs, ls. replace (Z.abs n) with (- n) in * by lia. rewrite Z.opp_involutive in G.
      rewrite between_all in C. auto.
Qed.

(** ** C29 *)

Definition hits (ixs : list Z) (len i : Z) : bool :=
  existsb (Z.eqb i) ixs || existsb (Z.eqb (i - len)) ixs.

Lemma hits_spec : forall ixs len i,
  hits ixs len i = true <-> exists x, In x ixs /\ (x = i \/ x = i - len).
Proof.
  intros ixs len i. unfold hits. rewrite orb_true_iff, !existsb_exists. split.
  - intros [(x & Hx & E)|(x & Hx & E)]; apply Z.eqb_eq in E; exists x; split; auto.
  - intros (x & Hx & [->| ->]); [left|right]; eexists; split; eauto; apply Z.eqb_refl.
Qed.

(** The loop run from position [i] with the current piece begun at [a]. *)
Lemma split_at_loop_spec : forall v l ixs, elems v l -> forall n i a acc,
  Z.of_nat n = zlen l - i -> 0 <= a <= i ->
  exists cs ls cuts,
    bind (foldM (fun st i =>
            if hits ixs (zlen l) i
            then do c <- lift (p_getitem v (ISlice (Some (fst st)) (Some i)));
                 ret (i, snd st ++ [c])
            else ret st) (a, acc) (zseq i (zlen l)))
         (fun st => do c <- lift (p_getitem v (ISlice (Some (fst st)) None));
                    ret (snd st ++ [c])) = ret (acc ++ cs)
    /\ Forall2 elems cs ls /\ concat ls = between l a (zlen l)
    /\ cuts_from (Z.to_nat a) ls = cuts
    /\ StronglySorted lt cuts
    /\ (forall c, In c cuts <-> (Z.to_nat i <= c < length l)%nat
                                /\ hits ixs (zlen l) (Z.of_nat c) = true)
    /\ (length ls = S (length cuts)).
Proof.
  intros v l ixs E. induction n as [|n IH]; intros i a acc Hn Ha.
  - rewrite zseq_nil by lia. cbn [foldM]. rewrite bind_ret. cbn [fst snd].
    destruct (slice_tail v l a E) as (w & G & Ew); [lia..|].
    rewrite G, bind_lift_val. exists [w], [between l a (zlen l)], [].
    split; [reflexivity|]. split; [constructor; [exact Ew|constructor]|].
    split; [simpl; apply app_nil_r|]. split; [reflexivity|]. split; [constructor|].
    split; [|reflexivity]. intro c. split; [intros []|]. intros [Hc _]. unfold zlen in *. lia.
  - assert (ZS : zseq i (zlen l) = i :: zseq (i + 1) (zlen l)).
    { rewrite !zseq_ints_from. replace (Z.to_nat (zlen l - i)) with (S (Z.to_nat (zlen l - (i + 1)))) by lia.
      reflexivity. }
    rewrite ZS. cbn [foldM fst snd].
    destruct (hits ixs (zlen l) i) eqn:H.
    + destruct (slice_inside v l a i E) as (w & G & Ew); [lia..|].
      rewrite G, bind_lift_val, bind_ret.
      destruct (IH (i + 1) i (acc ++ [w])) as (cs & ls & cuts & R & F & C & Cu & S & M & L); [lia..|].
      exists (w :: cs), (between l a i :: ls), (Z.to_nat i :: cuts).
      rewrite R. split; [rewrite <- app_assoc; reflexivity|].
      split; [constructor; assumption|].
      split; [cbn [concat]; rewrite C; apply between_app; lia|].
      destruct ls as [|q ls]; [discriminate|].
      split; [|split; [|split]].
      * change (cuts_from (Z.to_nat a) (between l a i :: q :: ls))
          with ((Z.to_nat a + length (between l a i))%nat
                :: cuts_from (Z.to_nat a + length (between l a i)) (q :: ls)).
        rewrite between_length by lia.
        replace (Z.to_nat a + Z.to_nat (i - a))%nat with (Z.to_nat i) by lia. rewrite Cu. reflexivity.
      * constructor; [exact S|]. apply Forall_forall. intros c Hc. apply M in Hc. lia.
      * intro c. cbn [In]. rewrite M. split.
        -- intros [<-|[Hc Hh]]; [|split; [lia|exact Hh]].
           rewrite Z2Nat.id by lia. split; [unfold zlen in *; lia|exact H].
        -- intros [Hc Hh]. destruct (Nat.eq_dec (Z.to_nat i) c); [auto|right]. split; [lia|exact Hh].
      * simpl in *. congruence.
    + rewrite bind_ret.
      destruct (IH (i + 1) a acc) as (cs & ls & cuts & R & F & C & Cu & S & M & L); [lia..|].
      exists cs, ls, cuts. repeat (split; [assumption|]). split; [|exact L].
      intro c. rewrite M. split; intros [Hc Hh]; (split; [|exact Hh]); [lia|].
      destruct (Nat.eq_dec (Z.to_nat i) c) as [<-|]; [|lia].
      rewrite Z2Nat.id in Hh by lia. congruence.
Qed.

Lemma split_at_op : forall fmt v l ix ixs, elems v l ->
  (ix = PList (map scal_Z ixs) \/ exists i, ix = scal_Z i /\ ixs = [i]) ->
  exists cs ls, run_op fmt "^@" [v; ix] = ret (PList cs)
    /\ Forall2 elems cs ls /\ concat ls = l
    /\ StronglySorted lt (cuts_from 0 ls)
    /\ length ls = S (length (cuts_from 0 ls))
    /\ (forall c, In c (cuts_from 0 ls) <->
          (c < length l)%nat /\ exists i, In i ixs
             /\ (i = Z.of_nat c \/ i + Z.of_nat (length l) = Z.of_nat c)).
Proof.
  intros fmt v l ix ixs E H.
  assert (Ib : is_block v = false) by (eapply elems_not_block, E).
  assert (R : run_op fmt "^@" [v; ix] =
    do r <- split_at_loop v (zlen l) ixs; ret (PList r)).
  { assert (G : op_SPLITAT v ix = do r <- split_at_loop v (zlen l) ixs; ret (PList r)).
    { destruct H as [->|(i & -> & ->)]; unfold op_SPLITAT.
      - assert (MR : mapR int_of (map scal_Z ixs) = Val ixs).
        { apply mapR_Forall2. clear. induction ixs; constructor; [|assumption].
          unfold scal_Z, int_of. rewrite scalar_int_str. reflexivity. }
        rewrite MR, (elems_iterable _ _ E), (elems_len _ _ E), bind_lift_val. reflexivity.
      - unfold scal_Z. rewrite scalar_int_str, (elems_iterable _ _ E), (elems_len _ _ E), bind_lift_val.
        reflexivity. }
    run_plain; [exact G| |].
    - rewrite Ib. destruct H as [->|(i & -> & _)]; reflexivity.
    - destruct H as [->|(i & -> & _)]; destruct v; reflexivity. }
  destruct (split_at_loop_spec v l ixs E (length l) 0 0 []) as (cs & ls & cuts & L & F & C & Cu & S & M & N);
    [unfold zlen; lia|lia|].
  exists cs, ls. simpl in Cu. subst cuts. split.
  - rewrite R. change (split_at_loop v (zlen l) ixs = ret cs) in L.
    rewrite L, bind_ret. reflexivity.
  - split; [exact F|]. split; [rewrite C; apply between_all|].
    split; [exact S|]. split; [exact N|].
    intro c. rewrite M, hits_spec. split.
    + intros [Hc (x & Hx & D)]. split; [lia|]. exists x. split; [exact Hx|]. unfold zlen in D. lia.
    + intros [Hc (x & Hx & D)]. split; [lia|]. exists x. split; [exact Hx|]. unfold zlen. lia.
Qed.
