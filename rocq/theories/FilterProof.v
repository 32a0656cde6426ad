(** * Filtering and sorting with a function: proofs *)

From Coq Require Import String List NArith ZArith Bool Arith Lia Sorted Permutation.
From Verif Require Import PyStr PyRe PyNum Tokens OpFun OpTable Unparse
                          PTypes Ops OpsSeq Apply Spec StrFacts PFacts SeqProof ItemProof RunOp
                          NumCmp NumProof
                          Heap Exec SpecHeap HeapProof ExecRel ExecInv EvalProof
                          SpecScan SpecRun SpecList SpecVars VarProof CtlProof PureProof LoopProof SpecMap MapProof.
From Verif Require MainProof ReprProof SortProof NumProof2.
Import ListNotations.
Local Open Scope string_scope.
Local Open Scope list_scope.
Local Open Scope Z_scope.

(** ** Filtering *)
Section Filter.
  Variables (argsM : Z * hval -> M (list hval)) (keptM : Z * hval -> M hval).
  Variables (args : nat -> hval -> state -> list hval -> state -> Prop)
            (kept : nat -> hval -> state -> hval -> state -> Prop).
  Hypothesis args_ok : forall i v s l s1, argsM (Z.of_nat i, v) s = Ok l s1 <-> args i v s l s1.
  Hypothesis kept_ok : forall i v s r s1, keptM (Z.of_nat i, v) s = Ok r s1 <-> kept i v s r s1.
  Variables (neg : bool) (f : hval).

  Definition verdict (R : interp) (p : Z * hval) : M (list hval) :=
    a <- argsM p;; v <- i_call R f a;; b <- truth v;;
    if xorb neg b then r <- keptM p;; mret [r] else mret [].
  Lemma steady_verdict p : steady (fun R => verdict R p).
  Proof.
    apply steady_bind; [apply steady_const|]. intros a.
    apply steady_bind; [apply steady_call|]. intros v. apply steady_const.
  Qed.
  Lemma verdict_ends i v s l s' :
    ends (fun R => verdict R (Z.of_nat i, v)) s l s' <->
    exists a s1 w s2 b, args i v s a s1 /\ calls s1 f a w s2 /\ object_counts (st_heap s2) w b /\
      if Bool.eqb b (negb neg) then exists r, l = [r] /\ kept i v s2 r s' else l = [] /\ s' = s2.
  Proof.
    unfold verdict.
    rewrite (ends_bind (fun _ => argsM (Z.of_nat i, v)) (fun R a => v0 <- i_call R f a;; b <- truth v0;;
       if xorb neg b then r <- keptM (Z.of_nat i, v);; mret [r] else mret []));
      [|apply steady_const|intros a; apply steady_bind; [apply steady_call|intros ?; apply steady_const]].
    assert (Q : forall a s1, ends (fun R => v0 <- i_call R f a;; b <- truth v0;;
       if xorb neg b then r <- keptM (Z.of_nat i, v);; mret [r] else mret []) s1 l s' <->
       exists w s2 b, calls s1 f a w s2 /\ object_counts (st_heap s2) w b /\
      if Bool.eqb b (negb neg) then exists r, l = [r] /\ kept i v s2 r s' else l = [] /\ s' = s2).
    { intros a s1.
      rewrite (ends_bind (fun R => i_call R f a) (fun R v0 => b <- truth v0;;
       if xorb neg b then r <- keptM (Z.of_nat i, v);; mret [r] else mret []));
        [|apply steady_call|intros ?; apply steady_const].
      assert (T : forall w s2, (b <- truth w;;
         if xorb neg b then r <- keptM (Z.of_nat i, v);; mret [r] else mret []) s2 = Ok l s' <->
         exists b, object_counts (st_heap s2) w b /\
         if Bool.eqb b (negb neg) then exists r, l = [r] /\ kept i v s2 r s' else l = [] /\ s' = s2).
      { intros w s2.
        assert (U : forall b, (if xorb neg b then r <- keptM (Z.of_nat i, v);; mret [r] else mret []) s2 = Ok l s' <->
           if Bool.eqb b (negb neg) then exists r, l = [r] /\ kept i v s2 r s' else l = [] /\ s' = s2).
        { intros b. replace (Bool.eqb b (negb neg)) with (xorb neg b) by (destruct b, neg; reflexivity).
          destruct (xorb neg b).
          - split.
            + intros E. bind_inv E. injection E as <- <-. exists a0. split; [reflexivity|]. apply kept_ok. exact E0.
            + intros (r & -> & K). apply kept_ok in K. rewrite (bind_step _ _ _ _ _ K). reflexivity.
          - split; [intros E; injection E as <- <-; auto|intros [-> ->]; reflexivity]. }
        split.
        - intros E. bind_inv E. apply truth_iff in E0. destruct E0 as [-> Cb]. exists a0.
          split; [exact Cb|]. apply U. exact E.
        - intros (b & Cb & H).
          rewrite (bind_step _ _ _ _ _ (proj2 (truth_iff _ _ _ _) (conj eq_refl Cb))). apply U. exact H. }
      split.
      - intros (w & s2 & C & E). apply ends_const, T in E. destruct E as (b & Cb & H). exists w, s2, b. auto.
      - intros (w & s2 & b & C & Cb & H). exists w, s2. split; [exact C|]. apply ends_const, T. eauto. }
    split.
    - intros (a & s1 & E1 & E2). apply ends_const, args_ok in E1. apply Q in E2.
      destruct E2 as (w & s2 & b & H). exists a, s1, w, s2, b. split; [exact E1|exact H].
    - intros (a & s1 & w & s2 & b & E1 & H). exists a, s1. split; [apply ends_const, args_ok; exact E1|].
      apply Q. exists w, s2, b. exact H.
  Qed.

  Fixpoint with_index (i : nat) (l : list hval) : list (Z * hval) :=
    match l with [] => [] | v :: l' => (Z.of_nat i, v) :: with_index (S i) l' end.
  Lemma with_index_eq l : combine (zseq 0 (zlen l)) l = with_index 0 l.
  Proof.
    assert (G : forall i, combine (map (fun n => Z.of_nat i + Z.of_nat n) (seq 0 (length l))) l
                          = with_index i l).
    { induction l as [|v l IH]; intros i; [reflexivity|]. cbn [length seq map combine with_index].
      rewrite Z.add_0_r. f_equal. rewrite <- IH, <- seq_shift, map_map. f_equal.
      apply map_ext. intros n. lia. }
    rewrite <- (G O). unfold zseq, zlen. rewrite Z.sub_0_r, Nat2Z.id. reflexivity.
  Qed.

  Lemma keeps_ends vs : forall i s rs s',
    (exists rss, ends (fun R => mmap (verdict R) (with_index i vs)) s rss s' /\ concat rss = rs) <->
    keeps args kept (negb neg) f i vs s rs s'.
  Proof.
    induction vs as [|v vs IH]; intros i s rs s'; cbn [with_index mmap].
    - split.
      + intros (rss & E & <-). apply ends_const in E. injection E as <- <-. constructor.
      + intros K. inversion K; subst. exists []. split; [apply ends_const; reflexivity|reflexivity].
    - assert (SV : forall l, steady (fun R => mmap (verdict R) l))
        by (intros l; apply (steady_map verdict), steady_verdict).
      assert (Q : forall l s1 rss, ends (fun R => ls <- mmap (verdict R) (with_index (S i) vs);; mret (l :: ls)) s1 rss s'
          <-> exists ls, rss = l :: ls /\ ends (fun R => mmap (verdict R) (with_index (S i) vs)) s1 ls s').
      { intros l s1 rss. rewrite (ends_bind (fun R => mmap (verdict R) (with_index (S i) vs)) (fun R ls => mret (l :: ls)));
          [|apply SV|intros; apply steady_const].
        split.
        - intros (ls & s2 & E1 & E2). apply ends_const in E2. injection E2 as <- <-. eauto.
        - intros (ls & -> & E). exists ls, s'. split; [exact E|apply ends_const; reflexivity]. }
      split.
      + intros (rss & E & <-).
        rewrite (ends_bind (fun R => verdict R (Z.of_nat i, v))
           (fun R l => ls <- mmap (verdict R) (with_index (S i) vs);; mret (l :: ls))) in E;
          [|apply steady_verdict|intros l; apply steady_bind; [apply SV|intros; apply steady_const]].
        destruct E as (l & s1 & E1 & E2). apply Q in E2. destruct E2 as (ls & -> & E2).
        assert (K : keeps args kept (negb neg) f (S i) vs s1 (concat ls) s') by (apply IH; eauto).
        apply verdict_ends in E1. destruct E1 as (a & s2 & w & s3 & b & Ha & Hc & Hb & H).
        cbn [concat]. destruct (Bool.eqb b (negb neg)) eqn:Eb.
        * apply eqb_prop in Eb. subst b. destruct H as (r & -> & Hk). cbn [List.app].
          eapply keeps_item; eassumption.
        * destruct H as [-> ->]. eapply keeps_not; try eassumption.
          replace (negb (negb neg)) with b by (destruct b, neg; try reflexivity; discriminate). exact Hb.
      + intros K.
        assert (P : exists l s1 rs', ends (fun R => verdict R (Z.of_nat i, v)) s l s1
                    /\ keeps args kept (negb neg) f (S i) vs s1 rs' s' /\ rs = l ++ rs').
        { inversion K as [|? ? ? ? l s1 w s2 r s3 rs' s4 Ha Hc Hb Hk K'|? ? ? ? l s1 w s2 rs' s4 Ha Hc Hb K']; subst.
          - exists [r], s3, rs'. split; [|split; [exact K'|reflexivity]]. apply verdict_ends.
            exists l, s1, w, s2, (negb neg). rewrite eqb_reflx. eauto 8.
          - exists [], s2, rs. split; [|split; [exact K'|reflexivity]]. apply verdict_ends.
            exists l, s1, w, s2, (negb (negb neg)). split; [exact Ha|]. split; [exact Hc|]. split; [exact Hb|].
            destruct neg; cbn; auto. }
        destruct P as (l & s1 & rs' & E1 & K' & ->). apply IH in K'. destruct K' as (ls & E2 & <-).
        exists (l :: ls). split; [|reflexivity].
        rewrite (ends_bind (fun R => verdict R (Z.of_nat i, v))
           (fun R l => ls <- mmap (verdict R) (with_index (S i) vs);; mret (l :: ls)));
          [|apply steady_verdict|intros l0; apply steady_bind; [apply SV|intros; apply steady_const]].
        exists l, s1. split; [exact E1|]. apply Q. eauto.
  Qed.

  Definition filter_core (vs : list hval) (R : interp) : M xval :=
    rs <- mmap (verdict R) (with_index 0 vs);; v <- new_list (concat rs);; xret v.
  Lemma steady_filter vs : steady (filter_core vs).
  Proof. apply steady_bind; [apply (steady_map verdict), steady_verdict|intros; apply steady_const]. Qed.
  Lemma filter_ends vs s x s' :
    ends (filter_core vs) s x s' <->
    exists rs s3 u, x = XR u /\ keeps args kept (negb neg) f 0 vs s rs s3 /\ makes_list rs s3 u s'.
  Proof.
    unfold filter_core.
    rewrite (ends_bind (fun R => mmap (verdict R) (with_index 0 vs)) (fun R rs => v <- new_list (concat rs);; xret v));
      [|apply (steady_map verdict), steady_verdict|intros; apply steady_const].
    split.
    - intros (rss & s3 & E1 & E2). apply ends_const, new_list_iff in E2. destruct E2 as (u & -> & L).
      exists (concat rss), s3, u. split; [reflexivity|]. split; [apply keeps_ends; eauto|exact L].
    - intros (rs & s3 & u & -> & K & L). apply keeps_ends in K. destruct K as (rss & E & <-).
      exists rss, s3. split; [exact E|]. apply ends_const, new_list_iff. eauto.
  Qed.

  Lemma filter_with_core w R it s1 vs s2 :
    is_function f -> h_iterable it = true -> h_block it = false -> h_iter it s1 = Ok vs s2 ->
    filter_with R w neg argsM keptM f it s1 = filter_core vs R s2
    /\ filter_with R w neg argsM keptM it f s1 = filter_core vs R s2.
  Proof.
    intros F I B E. destruct (swap_fun f it F I B) as [W1 W2].
    unfold filter_with. rewrite W1, W2, I, (proj1 (function_block _ F)). cbn [andb].
    rewrite (bind_step _ _ _ _ _ E), with_index_eq. split; reflexivity.
  Qed.

  Lemma filters text o w s e1 e2 it s1 p l :
    op_by_arity 2 (s_ text) = Some o -> MainProof.plain_rvals o = true ->
    (forall R a b, call_fun R (o_fun o) [arg_of a; arg_of b] = filter_with R w neg argsM keptM a b) ->
    applied s e1 e2 f it s1 -> den (st_heap s1) it p -> elems p l ->
    exists vs s2, visits s1 it l vs s2 /\
      forall u s', gives s (app text [e1; e2]) u s' <->
        exists rs s3, keeps args kept (negb neg) f 0 vs s2 rs s3 /\ makes_list rs s3 u s'.
  Proof.
    intros Op Pl Cf [F Os] D E. destruct (elems_object _ _ _ _ D E) as [I B].
    destruct (iter_visits _ _ _ _ D E) as (vs & s2 & E2 & A2 & D2 & V).
    exists vs, s2. split; [exact V|]. intros u s'.
    assert (C : forall R, filter_with R w neg argsM keptM f it s1 = filter_core vs R s2
       /\ filter_with R w neg argsM keptM it f s1 = filter_core vs R s2)
      by (intros R; apply filter_with_core; assumption).
    assert (G : forall a b, operands s [e1; e2] [a; b] s1 ->
        (forall R, filter_with R w neg argsM keptM a b s1 = filter_core vs R s2) ->
        gives s (app text [e1; e2]) u s' <->
        exists rs s3, keeps args kept (negb neg) f 0 vs s2 rs s3 /\ makes_list rs s3 u s').
    { intros a b Oab Ca. rewrite (gives_plain text o [e1; e2] s [a; b] s1 u s' Op Pl Oab).
      assert (Q : forall x s3, ends (fun R => call_fun R (o_fun o) (map arg_of [a; b])) s1 x s3
                  <-> ends (filter_core vs) s2 x s3).
      { intros x s3. apply ends_eq. intros R. cbn [map]. rewrite Cf. apply Ca. }
      split.
      - intros (x & s3 & E1 & E3). apply Q, filter_ends in E1.
        destruct E1 as (rs & s4 & w0 & -> & K & L). injection E3 as -> ->. eauto.
      - intros (rs & s3 & K & L). exists (XR u), s'. split; [|reflexivity]. apply Q, filter_ends. eauto 6. }
    destruct Os as [Os|Os]; (eapply G; [exact Os|intros R; apply C]).
  Qed.
End Filter.

Lemma item_ok i v s l s1 : arg_item (Z.of_nat i, v) s = Ok l s1 <-> with_item i v s l s1.
Proof.
  split; [intros E; injection E as <- <-; constructor|intros H; inversion H; subst; reflexivity].
Qed.
Lemma scalar_iff z s v s' : fresh (scal_Z z) s = Ok v s' <-> makes_scalar (str_of_Z z) s v s'.
Proof.
  unfold makes_scalar. split; [intros E; injection E as <- <-; auto|intros [-> ->]; reflexivity].
Qed.
Lemma number_ok i v s l s1 : arg_indexed (Z.of_nat i, v) s = Ok l s1 <-> with_number i v s l s1.
Proof.
  unfold arg_indexed. cbn [fst snd]. split.
  - intros E. bind_inv E. injection E as <- <-. constructor. apply scalar_iff. exact E0.
  - intros H. inversion H as [? ? ? n ? M]; subst. apply scalar_iff in M.
    rewrite (bind_step _ _ _ _ _ M). reflexivity.
Qed.
Lemma kitem_ok i v s r s1 : kept_item (Z.of_nat i, v) s = Ok r s1 <-> the_item i v s r s1.
Proof.
  split; [intros E; injection E as <- <-; constructor|intros H; inversion H; subst; reflexivity].
Qed.
Lemma kindex_ok i v s r s1 : kept_index (Z.of_nat i, v) s = Ok r s1 <-> the_number i v s r s1.
Proof.
  unfold kept_index. cbn [fst]. rewrite scalar_iff.
  split; [intros H; constructor; exact H|intros H; inversion H; subst; assumption].
Qed.

Theorem filter_calls s e1 e2 f it s1 p l :
  applied s e1 e2 f it s1 -> den (st_heap s1) it p -> elems p l ->
  exists vs s2, visits s1 it l vs s2 /\
    forall u s', gives s (app "FI" [e1; e2]) u s' <->
      exists rs s3, keeps with_item the_item true f 0 vs s2 rs s3 /\ makes_list rs s3 u s'.
Proof.
  exact (filters arg_item kept_item _ _ item_ok kitem_ok false f "FI" _ _ s e1 e2 it s1 p l eq_refl eq_refl
           (fun _ _ _ => eq_refl)).
Qed.
Theorem filternot_calls s e1 e2 f it s1 p l :
  applied s e1 e2 f it s1 -> den (st_heap s1) it p -> elems p l ->
  exists vs s2, visits s1 it l vs s2 /\
    forall u s', gives s (app "FN" [e1; e2]) u s' <->
      exists rs s3, keeps with_item the_item false f 0 vs s2 rs s3 /\ makes_list rs s3 u s'.
Proof.
  exact (filters arg_item kept_item _ _ item_ok kitem_ok true f "FN" _ _ s e1 e2 it s1 p l eq_refl eq_refl
           (fun _ _ _ => eq_refl)).
Qed.
Theorem filterenum_calls s e1 e2 f it s1 p l :
  applied s e1 e2 f it s1 -> den (st_heap s1) it p -> elems p l ->
  exists vs s2, visits s1 it l vs s2 /\
    forall u s', gives s (app "FE" [e1; e2]) u s' <->
      exists rs s3, keeps with_number the_item true f 0 vs s2 rs s3 /\ makes_list rs s3 u s'.
Proof.
  exact (filters arg_indexed kept_item _ _ number_ok kitem_ok false f "FE" _ _ s e1 e2 it s1 p l eq_refl eq_refl
           (fun _ _ _ => eq_refl)).
Qed.
Theorem filterindex_calls s e1 e2 f it s1 p l :
  applied s e1 e2 f it s1 -> den (st_heap s1) it p -> elems p l ->
  exists vs s2, visits s1 it l vs s2 /\
    forall u s', gives s (app "FX" [e1; e2]) u s' <->
      exists rs s3, keeps with_number the_number true f 0 vs s2 rs s3 /\ makes_list rs s3 u s'.
Proof.
  exact (filters arg_indexed kept_index _ _ number_ok kindex_ok false f "FX" _ _ s e1 e2 it s1 p l eq_refl eq_refl
           (fun _ _ _ => eq_refl)).
Qed.

(** ** Filtering with a function that computes something *)
Section Value.
  Variables (A : Type) (item : A -> pval) (argp : A -> list pval) (keptp : A -> pval).
  Variables (args : nat -> hval -> state -> list hval -> state -> Prop)
            (kept : nat -> hval -> state -> hval -> state -> Prop).
  Variable at_ : nat -> A -> Prop.
  Hypothesis args_do : forall i v x s, at_ i x -> den (st_heap s) v (item x) ->
    exists l s', args i v s l s' /\ only_adds s s' /\ dens (st_heap s') l (argp x).
  Hypothesis kept_do : forall i v x s, at_ i x -> den (st_heap s) v (item x) ->
    exists r s', kept i v s r s' /\ only_adds s s' /\ den (st_heap s') r (keptp x).

  Fixpoint all_at (i : nat) (xs : list A) : Prop :=
    match xs with [] => True | x :: xs => at_ i x /\ all_at (S i) xs end.

  Lemma computes_keeps s0 f F sense : computes s0 f F ->
    forall xs rs, selected (fun x y => F (argp x) y) sense xs rs ->
    forall i vs s, only_adds s0 s -> dens (st_heap s) vs (map item xs) -> all_at i xs ->
    exists ks s', keeps args kept sense f i vs s ks s' /\ only_adds s s'
                  /\ dens (st_heap s') ks (map keptp rs).
  Proof.
    intros C xs rs H.
    induction H as [|x y l r Hf Hc H IH|x y l r Hf Hc H IH]; intros i vs s A0 D P;
      inversion D as [|v p vs' ps' D1 D2]; subst.
    - exists [], s. split; [constructor|]. split; [apply adds_refl|constructor].
    - destruct P as [P1 P2].
      destruct (args_do i v x s P1 D1) as (la & s1 & Ha & A1 & Da).
      destruct (C s1 la (argp x) y (adds_trans _ _ _ A0 A1) Da Hf) as (w & s2 & Hw & A2 & Dw).
      assert (A02 : only_adds s s2) by (eapply adds_trans; eassumption).
      destruct (kept_do i v x s2 P1 (adds_den _ _ _ _ A02 D1)) as (k & s3 & Hk & A3 & Dk).
      assert (A03 : only_adds s s3) by (eapply adds_trans; eassumption).
      destruct (IH (S i) vs' s3 (adds_trans _ _ _ A0 A03) (adds_dens _ _ _ _ A03 D2) P2)
        as (ks & s4 & K & A4 & Ds).
      exists (k :: ks), s4. split; [|split; [eapply adds_trans; eassumption|]].
      + eapply keeps_item; try eassumption. eapply object_counts_value; eassumption.
      + cbn [map]. constructor; [eapply adds_den; eassumption|exact Ds].
    - destruct P as [P1 P2].
      destruct (args_do i v x s P1 D1) as (la & s1 & Ha & A1 & Da).
      destruct (C s1 la (argp x) y (adds_trans _ _ _ A0 A1) Da Hf) as (w & s2 & Hw & A2 & Dw).
      assert (A02 : only_adds s s2) by (eapply adds_trans; eassumption).
      destruct (IH (S i) vs' s2 (adds_trans _ _ _ A0 A02) (adds_dens _ _ _ _ A02 D2) P2)
        as (ks & s4 & K & A4 & Ds).
      exists ks, s4. split; [|split; [eapply adds_trans; eassumption|exact Ds]].
      eapply keeps_not; try eassumption. eapply object_counts_value; eassumption.
  Qed.

  Lemma filters_value s s1 e f F sense xs rs vs s2 :
    computes s1 f F -> selected (fun x y => F (argp x) y) sense xs rs ->
    only_adds s1 s2 -> dens (st_heap s2) vs (map item xs) -> all_at 0 xs ->
    (forall u s', gives s e u s' <->
       exists rs s3, keeps args kept sense f 0 vs s2 rs s3 /\ makes_list rs s3 u s') ->
    results s s1 e (PList (map keptp rs)).
  Proof.
    intros C H A0 D P G. destruct (computes_keeps s1 f F sense C xs rs H 0 vs s2 A0 D P)
      as (ks & s3 & K & A3 & Ds).
    set (u := HList (length (st_heap s3))). set (s' := set_heap (st_heap s3 ++ [OL ks]) s3).
    assert (L : makes_list ks s3 u s') by (split; reflexivity).
    destruct (listed_den _ _ _ _ _ Ds L) as [Du A4]. exists u, s'.
    split; [apply G; eauto|]. split; [|exact Du].
    eapply adds_trans; [exact A0|]. eapply adds_trans; [exact A3|]. apply adv_only_adds. exact A4.
  Qed.
End Value.

Lemma item_do i v (x : pval) s : den (st_heap s) v x ->
  exists l s', with_item i v s l s' /\ only_adds s s' /\ dens (st_heap s') l [x].
Proof.
  intros D. exists [v], s. split; [constructor|]. split; [apply adds_refl|].
  constructor; [exact D|constructor].
Qed.
Lemma kitem_do i v (x : pval) s : den (st_heap s) v x ->
  exists r s', the_item i v s r s' /\ only_adds s s' /\ den (st_heap s') r x.
Proof. intros D. exists v, s. split; [constructor|]. split; [apply adds_refl|exact D]. Qed.
Lemma scalar_do t s : exists v s', makes_scalar t s v s' /\ only_adds s s' /\ den (st_heap s') v (PScal t).
Proof.
  exists (HScal (length (st_heap s))), (set_heap (st_heap s ++ [OS t]) s).
  split; [split; reflexivity|]. split; [apply adv_only_adds, (adv_grow [OS t] s)|].
  constructor. cbn. rewrite nth_error_app2, Nat.sub_diag by lia. reflexivity.
Qed.
Lemma number_do i v (x : pval) s : den (st_heap s) v x ->
  exists l s', with_number i v s l s' /\ only_adds s s' /\ dens (st_heap s') l [whole (Z.of_nat i); x].
Proof.
  intros D. destruct (scalar_do (str_of_Z (Z.of_nat i)) s) as (n & s' & M & A & Dn).
  exists [n; v], s'. split; [constructor; exact M|]. split; [exact A|].
  constructor; [exact Dn|]. constructor; [eapply adds_den; eassumption|constructor].
Qed.
Lemma knumber_do i v s :
  exists r s', the_number i v s r s' /\ only_adds s s' /\ den (st_heap s') r (whole (Z.of_nat i)).
Proof.
  destruct (scalar_do (str_of_Z (Z.of_nat i)) s) as (n & s' & M & A & Dn).
  exists n, s'. split; [constructor; exact M|]. auto.
Qed.

Lemma all_true (l : list pval) : forall i, all_at pval (fun _ _ => True) i l.
Proof. induction l; cbn; auto. Qed.
Lemma all_numbered l : forall i, all_at (nat * pval) (fun i x => fst x = i) i (numbered i l).
Proof. induction l; cbn; auto. Qed.
Lemma numbered_items l : forall i, map snd (numbered i l) = l.
Proof. induction l; intros i; cbn; congruence. Qed.

Theorem filter_value s e1 e2 f it s1 p l F r :
  applied s e1 e2 f it s1 -> den (st_heap s1) it p -> elems p l ->
  computes s1 f F -> selected (fun x y => F [x] y) true l r ->
  results s s1 (app "FI" [e1; e2]) (PList r).
Proof.
  intros Ap D E C H. destruct (filter_calls _ _ _ _ _ _ _ _ Ap D E) as (vs & s2 & (A & Dv & _) & G).
  rewrite <- (map_id r).
  eapply (filters_value pval (fun x => x) (fun x => [x]) (fun x => x) _ _ (fun _ _ => True));
    [intros i v x s0 _ Dx; exact (item_do i v x s0 Dx)|intros i v x s0 _ Dx; exact (kitem_do i v x s0 Dx)|exact C|exact H|exact A
    |rewrite map_id; exact Dv|apply all_true|exact G].
Qed.
Theorem filternot_value s e1 e2 f it s1 p l F r :
  applied s e1 e2 f it s1 -> den (st_heap s1) it p -> elems p l ->
  computes s1 f F -> selected (fun x y => F [x] y) false l r ->
  results s s1 (app "FN" [e1; e2]) (PList r).
Proof.
  intros Ap D E C H. destruct (filternot_calls _ _ _ _ _ _ _ _ Ap D E) as (vs & s2 & (A & Dv & _) & G).
  rewrite <- (map_id r).
  eapply (filters_value pval (fun x => x) (fun x => [x]) (fun x => x) _ _ (fun _ _ => True));
    [intros i v x s0 _ Dx; exact (item_do i v x s0 Dx)|intros i v x s0 _ Dx; exact (kitem_do i v x s0 Dx)|exact C|exact H|exact A
    |rewrite map_id; exact Dv|apply all_true|exact G].
Qed.
Theorem filterenum_value s e1 e2 f it s1 p l F r :
  applied s e1 e2 f it s1 -> den (st_heap s1) it p -> elems p l ->
  computes s1 f F ->
  selected (fun x y => F [whole (Z.of_nat (fst x)); snd x] y) true (numbered 0 l) r ->
  results s s1 (app "FE" [e1; e2]) (PList (map snd r)).
Proof.
  intros Ap D E C H. destruct (filterenum_calls _ _ _ _ _ _ _ _ Ap D E) as (vs & s2 & (A & Dv & _) & G).
  eapply (filters_value (nat * pval) snd (fun x => [whole (Z.of_nat (fst x)); snd x]) snd _ _
            (fun i x => fst x = i));
    [intros i v x s0 <- Dx; apply number_do; assumption|intros i v x s0 _ Dx; exact (kitem_do i v _ s0 Dx)|exact C|exact H|exact A
    |rewrite numbered_items; exact Dv|apply all_numbered|exact G].
Qed.
Theorem filterindex_value s e1 e2 f it s1 p l F r :
  applied s e1 e2 f it s1 -> den (st_heap s1) it p -> elems p l ->
  computes s1 f F ->
  selected (fun x y => F [whole (Z.of_nat (fst x)); snd x] y) true (numbered 0 l) r ->
  results s s1 (app "FX" [e1; e2]) (PList (map (fun x => whole (Z.of_nat (fst x))) r)).
Proof.
  intros Ap D E C H. destruct (filterindex_calls _ _ _ _ _ _ _ _ Ap D E) as (vs & s2 & (A & Dv & _) & G).
  eapply (filters_value (nat * pval) snd (fun x => [whole (Z.of_nat (fst x)); snd x])
            (fun x => whole (Z.of_nat (fst x))) _ _ (fun i x => fst x = i));
    [intros i v x s0 <- Dx; apply number_do; assumption|intros i v x s0 <- _; apply knumber_do|exact C|exact H|exact A
    |rewrite numbered_items; exact Dv|apply all_numbered|exact G].
Qed.

(** ** FU *)
Definition unpacked_args (i : nat) (v : hval) (s : state) (l : list hval) (s1 : state) : Prop :=
  arg_unpacked (Z.of_nat i, v) s = Ok l s1.
Lemma unpacked_do i v (x : pval * list pval) s :
  elems (fst x) (snd x) -> den (st_heap s) v (fst x) ->
  exists l s', unpacked_args i v s l s' /\ only_adds s s' /\ dens (st_heap s') l (snd x).
Proof.
  intros E D. destruct x as [x xs]. cbn [fst snd] in *.
  destruct (yields_iter v x xs s D (elems_p_iter _ _ E)) as (vs & s2 & E2 & A2 & D2).
  exists vs, s2. split; [|split; [apply adv_only_adds; exact A2|exact D2]].
  unfold unpacked_args, arg_unpacked. cbn [snd]. destruct E; inversion D; subst; exact E2.
Qed.
Lemma selected_unpacked F sense l r :
  selected (fun x y => exists xs, elems x xs /\ F xs y) sense l r ->
  exists xl xr, map fst xl = l /\ map fst xr = r /\ (forall i, all_at (pval * list pval) (fun _ x => elems (fst x) (snd x)) i xl)
    /\ selected (fun x y => F (snd x) y) sense xl xr.
Proof.
  induction 1 as [|x y l r (xs & E & Fx) Hc H (xl & xr & <- & <- & P & S)
                 |x y l r (xs & E & Fx) Hc H (xl & xr & <- & <- & P & S)].
  - exists [], []. cbn. repeat split; constructor.
  - exists ((x, xs) :: xl), ((x, xs) :: xr). cbn. repeat split; auto.
    eapply selected_one; eauto.
  - exists ((x, xs) :: xl), xr. cbn. repeat split; auto.
    eapply selected_not; eauto.
Qed.
Theorem filterunpack_value s e1 e2 f it s1 p l F r :
  applied s e1 e2 f it s1 -> den (st_heap s1) it p -> elems p l ->
  computes s1 f F -> selected (fun x y => exists xs, elems x xs /\ F xs y) true l r ->
  results s s1 (app "FU" [e1; e2]) (PList r).
Proof.
  intros Ap D E C H. destruct (selected_unpacked _ _ _ _ H) as (xl & xr & El & <- & P & S).
  destruct (filters arg_unpacked kept_item unpacked_args the_item (fun _ _ _ _ _ => conj (fun x => x) (fun x => x))
              kitem_ok false f "FU" _ _ s e1 e2 it s1 p l eq_refl eq_refl (fun _ _ _ => eq_refl) Ap D E)
    as (vs & s2 & (A & Dv & _) & G).
  eapply (filters_value (pval * list pval) fst snd fst unpacked_args the_item (fun _ x => elems (fst x) (snd x)));
    [intros i v x s0 Px Dx; exact (unpacked_do i v x s0 Px Dx)|intros i v x s0 _ Dx; exact (kitem_do i v _ s0 Dx)
    |exact C|exact S|exact A|rewrite El; exact Dv|apply P|exact G].
Qed.

(** ** FJ *)
Theorem filterjoin_does s e1 e2 f it s1 p l :
  applied s e1 e2 f it s1 -> den (st_heap s1) it p -> elems p l ->
  exists vs s2, visits s1 it l vs s2 /\
    forall rs s3 qs r, keeps with_item the_item true f 0 vs s2 rs s3 -> dens (st_heap s3) rs qs ->
      snd (run_op (st_fmt s3) "J" [PList qs]) = Val r ->
      results s s3 (app "FJ" [e1; e2]) r.
Proof.
  intros [F Os] D E. destruct (elems_object _ _ _ _ D E) as [I B].
  destruct (iter_visits _ _ _ _ D E) as (vs & s2 & E2 & A2 & D2 & V).
  exists vs, s2. split; [exact V|]. intros rs s3 qs r K Dr J.
  destruct (join_pure _ _ _ J) as (m & Pm & Vm).
  set (u := HList (length (st_heap s3))). set (s4 := set_heap (st_heap s3 ++ [OL rs]) s3).
  assert (L : makes_list rs s3 u s4) by (split; reflexivity).
  destruct (listed_den _ _ _ _ _ Dr L) as [Du A4].
  assert (Ek : ends (filter_core arg_item kept_item false f vs) s2 (XR u) s4).
  { apply (filter_ends arg_item kept_item _ _ item_ok kitem_ok false f vs). eauto 6. }
  destruct (then_fun (filter_core arg_item kept_item false f vs) F_JOIN s2 u s4 (PList qs) m r
              (steady_filter arg_item kept_item false f vs) Ek Du eq_refl Pm Vm)
    as (w & s' & Ew & A & Dw).
  exists w, s'. split; [|split; [eapply adds_trans; [apply adv_only_adds; exact A4|exact A]|exact Dw]].
  pose proof (fun w0 R => filter_with_core arg_item kept_item false f w0 R it s1 vs s2 F I B E2) as C2.
  destruct Os as [Os|Os]; (eapply gives_ends; [reflexivity|reflexivity|exact Os|]);
    (apply (ends_eq _ (fun R => x <- filter_core arg_item kept_item false f vs R;; i_fun R F_JOIN [AVal x]) _ s2); [|exact Ew]);
    intros R; cbn [map]; cbn [o_fun]; unfold arg_of;
    [change (mbind (filter_with R "FILTER" false arg_item kept_item f it) (fun x => i_fun R F_JOIN [AVal x]) s1
       = mbind (filter_core arg_item kept_item false f vs R) (fun x => i_fun R F_JOIN [AVal x]) s2);
     unfold mbind; rewrite (proj1 (C2 "FILTER" R)); reflexivity
    |change (mbind (filter_with R "FILTER" false arg_item kept_item it f) (fun x => i_fun R F_JOIN [AVal x]) s1
       = mbind (filter_core arg_item kept_item false f vs R) (fun x => i_fun R F_JOIN [AVal x]) s2);
     unfold mbind; rewrite (proj2 (C2 "FILTER" R)); reflexivity].
Qed.

(** ** Sorting by a key *)
Definition keying (w : warning) (f : hval) (R : interp) (x : hval) : M (key * hval) :=
  k <- i_call R f [x];; p <- dread k;; k <- key_of w p;; mret (k, x).
Lemma steady_keying w f x : steady (fun R => keying w f R x).
Proof. apply steady_bind; [apply steady_call|intros; apply steady_const]. Qed.
Lemma key_of_sort w p s : sort_key p -> key_of w p s = Ok (p_to_number p) s.
Proof. destruct p as [t|r n|l|lo [u|]|sts r|]; cbn; intros H; try contradiction; reflexivity. Qed.
Lemma keyed_ends w f vs s ks s' : keyed_by f vs s ks s' ->
  ends (fun R => mmap (keying w f R) vs) s (combine (map p_to_number ks) vs) s'.
Proof.
  induction 1 as [s|v k p s s1 vs ks s2 C D K H IH]; [apply ends_const; reflexivity|].
  cbn [mmap map combine].
  rewrite (ends_bind (fun R => keying w f R v) (fun R l => ls <- mmap (keying w f R) vs;; mret (l :: ls)));
    [|apply steady_keying|intros l; apply steady_bind; [apply (steady_map (keying w f)); apply steady_keying|intros; apply steady_const]].
  exists (p_to_number p, v), s1. split.
  - unfold keying.
    rewrite (ends_bind (fun R => i_call R f [v]) (fun R k => p <- dread k;; k <- key_of w p;; mret (k, v)));
      [|apply steady_call|intros; apply steady_const].
    exists k, s1. split; [exact C|]. apply ends_const.
    rewrite (bind_step _ _ _ _ _ (dread_ok _ _ _ D)), (bind_step _ _ _ _ _ (key_of_sort w p s1 K)). reflexivity.
  - rewrite (ends_bind (fun R => mmap (keying w f R) vs) (fun R ls => mret ((p_to_number p, v) :: ls)));
      [|apply (steady_map (keying w f)); apply steady_keying|intros; apply steady_const].
    exists (combine (map p_to_number ks) vs), s2. split; [exact IH|]. apply ends_const. reflexivity.
Qed.

(** The order of the sorted items, for any kind of items. *)
Definition sort_items {A} (desc : bool) (l : list (key * A)) : list (key * A) :=
  (if desc then stable_sort_desc else stable_sort) (fun a b => key_lt (fst a) (fst b)) l.
Lemma sort_items_map {A B} (g : A -> B) (desc : bool) (l : list (key * A)) :
  sort_items desc (map (fun x => (fst x, g (snd x))) l)
  = map (fun x => (fst x, g (snd x))) (sort_items desc l).
Proof.
  set (h := fun x : key * A => (fst x, g (snd x))). unfold sort_items. destruct desc.
  - unfold stable_sort_desc. rewrite <- map_rev.
    rewrite <- (SortProof.stable_sort_map h (fun a b => key_lt (fst a) (fst b))), map_rev. reflexivity.
  - rewrite <- (SortProof.stable_sort_map h (fun a b => key_lt (fst a) (fst b))). reflexivity.
Qed.
Lemma sort_items_spec {A} (desc : bool) (l : list (key * A)) :
  Forall (fun k => SortProof.good (fst k) = true) l -> all_comparable (map fst l) = true ->
  stably_sorted (fun x y : key * A => if desc then key_before (fst y) (fst x) else key_before (fst x) (fst y))
    l (sort_items desc l).
Proof.
  intros G E. unfold sort_items.
  assert (G' : Forall (fun k => SortProof.good k = true) (map fst l)) by (apply Forall_map; exact G).
  pose proof (proj1 (SortProof.all_comparable_in _ G') E) as C.
  rewrite Forall_forall in G.
  assert (T : forall a b c : key * A, In a l -> In b l -> In c l ->
    key_lt (fst a) (fst b) = true -> key_lt (fst b) (fst c) = true ->
    key_lt (fst a) (fst c) = true) by (intros; eapply SortProof.key_lt_trans; eassumption).
  assert (N : forall a b c : key * A, In a l -> In b l -> In c l ->
    key_lt (fst a) (fst b) = false -> key_lt (fst b) (fst c) = false ->
    key_lt (fst a) (fst c) = false).
  { intros a b c Ha Hb Hc. apply SortProof.key_lt_negtrans; auto; apply C; apply in_map; auto. }
  destruct desc.
  - eapply SortProof.stably_sorted_iff;
      [|apply SortProof.stable_sort_desc_ok with (lt := fun a b => key_lt (fst a) (fst b)); assumption].
    intros. apply SortProof.key_lt_before.
  - eapply SortProof.stably_sorted_iff;
      [|apply SortProof.stable_sort_ok with (lt := fun a b => key_lt (fst a) (fst b)); assumption].
    intros. apply SortProof.key_lt_before.
Qed.
Lemma incomparable_keys ks :
  all_comparable (map p_to_number ks) = false ->
  exists x y, In x ks /\ In y ks /\ ~ number_same x y /\ ~ number_before x y /\ ~ number_before y x.
Proof.
  intros E.
  pose proof (SortProof.sorted_by_spec false (map (fun k => (p_to_number k, PNil)) ks)) as S.
  unfold sorted_by in S. rewrite map_map in S. cbn [fst] in S. change (map (fun x => p_to_number x) ks) with (map p_to_number ks) in S. rewrite E in S.
  destruct S as (a & b & Ia & Ib & N).
  { apply Forall_map, Forall_forall. intros; apply SortProof.p_to_number_good. }
  apply in_map_iff in Ia, Ib. destruct Ia as (x & <- & Ix), Ib as (y & <- & Iy).
  apply SortProof.key_ltb_none in N; try apply SortProof.p_to_number_good.
  exists x, y. unfold number_same, number_before. tauto.
Qed.

Lemma keyed_length f vs s ks s' : keyed_by f vs s ks s' -> length vs = length ks.
Proof. induction 1; cbn; congruence. Qed.
Lemma dens_length h vs ps : dens h vs ps -> length vs = length ps.
Proof. induction 1; cbn; congruence. Qed.

Lemma stably_in {A} (R : A -> A -> Prop) l r x : stably_sorted R l r -> In x r -> In x l.
Proof.
  intros (ps & P & _ & <-) I. apply in_map_iff in I. destruct I as ([i y] & <- & I).
  eapply in_combine_r. eapply Permutation_in; eassumption.
Qed.

(** What is sorted: the items with their values under their keys. *)
Definition bundle (ks : list pval) (vs : list hval) (ps : list pval) : list (pval * (hval * pval)) :=
  combine ks (combine vs ps).
Definition by_number {A} (x : pval * A) : key * A := (p_to_number (fst x), snd x).
Lemma bundle_heap ks vs : forall ps, length vs = length ks -> length vs = length ps ->
  combine (map p_to_number ks) vs = map (fun x => (fst x, fst (snd x))) (map by_number (bundle ks vs ps)).
Proof.
  revert vs. induction ks as [|k ks IH]; intros [|v vs] [|p ps] E1 E2; try discriminate; [reflexivity|].
  cbn in *. f_equal. apply IH; congruence.
Qed.
Lemma bundle_values ks vs : forall ps, length vs = length ks -> length vs = length ps ->
  combine ks ps = map (fun x => (fst x, snd (snd x))) (bundle ks vs ps).
Proof.
  revert vs. induction ks as [|k ks IH]; intros [|v vs] [|p ps] E1 E2; try discriminate; [reflexivity|].
  cbn in *. f_equal. apply IH; congruence.
Qed.
Lemma bundle_den h ks vs ps x : dens h vs ps -> In x (bundle ks vs ps) -> den h (fst (snd x)) (snd (snd x)).
Proof.
  intros D I. destruct x as [k [v p]]. apply in_combine_r in I. cbn.
  induction D as [|v' p' vs' ps' D1 D IH]; cbn in I; [contradiction|].
  destruct I as [E|I]; [injection E as -> ->; exact D1|apply IH; exact I].
Qed.

Lemma stably_sorted_unmap {A B} (g : A -> B) (R : B -> B -> Prop) l r :
  stably_sorted R (map g l) r ->
  exists r', r = map g r' /\ stably_sorted (fun a b => R (g a) (g b)) l r'.
Proof.
  intros (ps & P & S & <-). rewrite map_length in P.
  assert (Q : combine (seq 0 (length l)) (map g l)
              = map (fun x => (fst x, g (snd x))) (combine (seq 0 (length l)) l)).
  { clear P. generalize (seq 0 (length l)). intros is. revert is.
    induction l as [|x l IH]; intros [|i is]; cbn; try reflexivity. f_equal. apply IH. }
  rewrite Q in P. apply Permutation_map_inv in P.
  destruct P as (qs & -> & P). exists (map snd qs). rewrite !map_map. split; [reflexivity|].
  exists qs. split; [apply Permutation_sym; exact P|]. split; [|reflexivity].
  clear - S. induction qs as [|q qs IH]; [constructor|]. cbn in S. inversion S as [|? ? S1 S2]; subst.
  constructor; [apply IH; exact S1|]. rewrite Forall_map in S2. exact S2.
Qed.

Lemma SORT_core w desc R f it s1 :
  is_function f -> h_iterable it = true -> h_block it = false ->
  let body := swallow_type (items <- h_list it;; keyed <- mmap (keying w f R) items;;
               match sorted_h desc keyed with
               | Some l => l' <- copies l;; v <- new_list l';; xret v
               | None => xwarn w
               end) (xwarn w) in
  SORT R w desc f it s1 = body s1 /\ SORT R w desc it f s1 = body s1.
Proof.
  intros F I B. unfold SORT. pose proof (proj1 (function_block _ F)) as Bf. rewrite Bf, B. cbn [negb andb]. cbv beta iota zeta. rewrite Bf, I. split; reflexivity.
Qed.

Theorem sort_does text desc w o s e1 e2 f it s1 p l :
  op_by_arity 2 (s_ text) = Some o -> MainProof.plain_rvals o = true ->
  (forall R a b, call_fun R (o_fun o) [arg_of a; arg_of b] = SORT R w desc a b) ->
  applied s e1 e2 f it s1 -> den (st_heap s1) it p -> elems p l ->
  exists vs s2, visits s1 it l vs s2 /\
    forall ks s3 ps, keyed_by f vs s2 ks s3 -> dens (st_heap s3) vs ps ->
      (exists x y, In x ks /\ In y ks /\ ~ number_same x y /\ ~ number_before x y /\ ~ number_before y x
         /\ results s s3 (app text [e1; e2]) PNil)
      \/ exists r, stably_sorted (directed desc (fun a b => number_before (fst a) (fst b))) (combine ks ps) r
         /\ results s s3 (app text [e1; e2]) (PList (map snd r)).
Proof.
  intros Op Pl Cf [F Os] D E. destruct (elems_object _ _ _ _ D E) as [I B].
  destruct (iter_visits _ _ _ _ D E) as (vs & s2 & E2 & A2 & D2 & V).
  exists vs, s2. split; [exact V|]. intros ks s3 ps K Dp.
  assert (Hl : h_list it s1 = Ok vs s2) by (destruct E; inversion D; subst; exact E2).
  pose proof (keyed_ends w _ _ _ _ _ K) as Ek.
  pose proof (keyed_length _ _ _ _ _ K) as L1. pose proof (dens_length _ _ _ Dp) as L2.
  assert (Go : forall q, yields (match sorted_h desc (combine (map p_to_number ks) vs) with
                        | Some l => l' <- copies l;; v <- new_list l';; xret v
                        | None => xwarn w end) s3 (fun x s' => denx (st_heap s') x q) ->
               results s s3 (app text [e1; e2]) q).
  { intros q (x & s' & Ey & Ay & (v & -> & Dv)). exists v, s'.
    split; [|split; [apply adv_only_adds; exact Ay|exact Dv]].
    destruct Ek as [n Ek].
    assert (Ex : forall a b, (forall R, SORT R w desc a b s1 = swallow_type (items <- h_list it;; keyed <- mmap (keying w f R) items;;
               match sorted_h desc keyed with
               | Some l => l' <- copies l;; v <- new_list l';; xret v
               | None => xwarn w
               end) (xwarn w) s1) -> ends (fun R => call_fun R (o_fun o) (map arg_of [a; b])) s1 (XR v) s').
    { intros a b Eq. exists n. cbn [map]. rewrite Cf, Eq. unfold swallow_type.
      rewrite (bind_step _ _ _ _ _ Hl), (bind_step _ _ _ _ _ Ek), Ey. reflexivity. }
    destruct Os as [Os|Os]; (eapply gives_ends; [exact Op|exact Pl|exact Os|]); apply Ex; intros R;
      apply (SORT_core w desc R f it s1 F I B). }
  destruct (all_comparable (map p_to_number ks)) eqn:Ac.
  - right.
    set (L := bundle ks vs ps).
    assert (EL : map fst (map by_number L) = map p_to_number ks).
    { subst L. clear - L1 L2. unfold bundle. revert ks ps L1 L2.
      induction vs as [|v vs IH]; intros [|k ks] [|p ps] L1 L2; try discriminate; [reflexivity|].
      cbn in *. f_equal. apply IH; congruence. }
    assert (So : stably_sorted (fun x y => if desc then key_before (fst y) (fst x) else key_before (fst x) (fst y))
               (map by_number L) (sort_items desc (map by_number L))).
    { apply sort_items_spec; [|rewrite EL; exact Ac].
      apply Forall_map, Forall_forall. intros x _. apply SortProof.p_to_number_good. }
    destruct (stably_sorted_unmap _ _ _ _ So) as (r & Er & Sr).
    exists (map (fun x => (fst x, snd (snd x))) r). split.
    + rewrite (bundle_values ks vs ps L1 L2). eapply SortProof.stably_sorted_map; [|exact Sr].
      intros a b _ _. unfold directed, number_before, by_number. cbn. destruct desc; reflexivity.
    + apply Go. unfold sorted_h.
      rewrite (bundle_heap ks vs ps L1 L2), map_map. fold L.
      replace (map (fun x => fst (fst x, fst (snd x))) (map by_number L)) with (map p_to_number ks)
        by (rewrite <- EL; reflexivity).
      rewrite Ac.
      change ((if desc then stable_sort_desc else stable_sort) (fun a b : key * hval => key_lt (fst a) (fst b))
                (map (fun x => (fst x, fst (snd x))) (map by_number L)))
        with (sort_items desc (map (fun x => (fst x, fst (snd x))) (map by_number L))).
      rewrite (sort_items_map fst desc (map by_number L)), Er.
      assert (Dr : dens (st_heap s3) (map snd (map (fun x => (fst x, fst (snd x))) (map by_number r)))
                     (map snd (map (fun x => (fst x, snd (snd x))) r))).
      { assert (In_r : forall x, In x r -> In x L) by (intros x; eapply stably_in; exact Sr).
        clear - In_r Dp. induction r as [|x r IH]; [constructor|]. cbn. constructor.
        - eapply bundle_den; [exact Dp|]. apply In_r. left. reflexivity.
        - apply IH. intros y Iy. apply In_r. right. exact Iy. }
      eapply yields_bind; [apply yields_copies; exact Dr|]. intros l' s4 A4 D4.
      eapply yields_bind; [apply yields_new_list; exact D4|]. intros v s5 A5 D5.
      apply yields_ret. exists v. split; [reflexivity|exact D5].
  - left. destruct (incomparable_keys _ Ac) as (x & y & Ix & Iy & N1 & N2 & N3).
    exists x, y. repeat (split; [assumption|]). apply Go. unfold sorted_h.
    replace (map fst (combine (map p_to_number ks) vs)) with (map p_to_number ks)
      by (clear - L1; revert vs L1; induction ks as [|k ks IH]; intros [|v vs] L1; try discriminate;
          cbn in *; [reflexivity|f_equal; apply IH; congruence]).
    rewrite Ac.
    eapply yields_bind; [apply yields_warn|]. intros _ s' _ _. apply yields_ret. exists HNil. split; [reflexivity|constructor].
Qed.

Lemma scalars_comparable x y : scalar x -> scalar y ->
  number_same x y \/ number_before x y \/ number_before y x.
Proof.
  intros Sx Sy. destruct x as [s| | | | |], y as [t| | | | |]; try contradiction.
  unfold number_same, number_before. cbn [p_to_number].
  destruct (num_compare_some _ _ (to_number_not_nan s) (to_number_not_nan t)) as [c Ec].
  destruct c.
  - left. constructor. exact Ec.
  - right; left. constructor. exact Ec.
  - right; right. constructor. rewrite num_compare_sym, Ec. reflexivity.
Qed.

Theorem sort_scalars text desc w o fmt s e1 e2 f it s1 p l :
  op_by_arity 2 (s_ text) = Some o -> MainProof.plain_rvals o = true ->
  (forall R a b, call_fun R (o_fun o) [arg_of a; arg_of b] = SORT R w desc a b) ->
  applied s e1 e2 f it s1 -> den (st_heap s1) it p -> elems p l ->
  exists vs s2, visits s1 it l vs s2 /\
    forall ks s3 ps, keyed_by f vs s2 ks s3 -> dens (st_heap s3) vs ps -> Forall scalar ks ->
      exists r, stably_sorted (directed desc (fun a b => holds fmt "<" (fst a) (fst b))) (combine ks ps) r
         /\ results s s3 (app text [e1; e2]) (PList (map snd r)).
Proof.
  intros Op Pl Cf Ap D E.
  destruct (sort_does text desc w o s e1 e2 f it s1 p l Op Pl Cf Ap D E) as (vs & s2 & V & G).
  exists vs, s2. split; [exact V|]. intros ks s3 ps K Dp Sc. rewrite Forall_forall in Sc.
  destruct (G ks s3 ps K Dp) as [(x & y & Ix & Iy & N1 & N2 & N3 & _)|(r & So & Re)].
  - destruct (scalars_comparable x y (Sc _ Ix) (Sc _ Iy)) as [H|[H|H]]; contradiction.
  - exists r. split; [|exact Re]. eapply SortProof.stably_sorted_iff; [|exact So].
    intros [k a] [k' a'] Ia Ia'. apply in_combine_l in Ia, Ia'. unfold directed. cbn [fst].
    destruct desc; apply SortProof.scalar_key; auto.
Qed.

Lemma computes_keyed s0 f F : computes s0 f F -> forall l ks,
  Forall2 (fun x k => F [x] k) l ks -> Forall sort_key ks ->
  forall vs s, only_adds s0 s -> dens (st_heap s) vs l ->
  exists s', keyed_by f vs s ks s' /\ only_adds s s'.
Proof.
  intros C l ks H. induction H as [|x k l ks Hx H IH]; intros Sk vs s A D; inversion D as [|v p vs' ps' D1 D2]; subst.
  - exists s. split; [constructor|apply adds_refl].
  - inversion Sk as [|? ? Sk1 Sk2]; subst.
    destruct (C s [v] [x] k A) as (w & s1 & Cw & A1 & Dw); [constructor; [exact D1|constructor]|exact Hx|].
    destruct (IH Sk2 vs' s1 (adds_trans _ _ _ A A1) (adds_dens _ _ _ _ A1 D2)) as (s2 & K & A2).
    exists s2. split; [econstructor; eassumption|eapply adds_trans; eassumption].
Qed.
Theorem sort_value text desc w o fmt s e1 e2 f it s1 p l F ks :
  op_by_arity 2 (s_ text) = Some o -> MainProof.plain_rvals o = true ->
  (forall R a b, call_fun R (o_fun o) [arg_of a; arg_of b] = SORT R w desc a b) ->
  applied s e1 e2 f it s1 -> den (st_heap s1) it p -> elems p l ->
  computes s1 f F -> Forall2 (fun x k => F [x] k) l ks -> Forall scalar ks ->
  exists r, stably_sorted (directed desc (fun a b => holds fmt "<" (fst a) (fst b))) (combine ks l) r
         /\ results s s1 (app text [e1; e2]) (PList (map snd r)).
Proof.
  intros Op Pl Cf Ap D E C H Sc.
  destruct (sort_scalars text desc w o fmt s e1 e2 f it s1 p l Op Pl Cf Ap D E) as (vs & s2 & (A & Dv & _) & G).
  assert (Sk : Forall sort_key ks).
  { eapply Forall_impl; [|exact Sc]. intros [] Hk; try contradiction; exact I. }
  destruct (computes_keyed _ _ _ C _ _ H Sk vs s2 A Dv) as (s3 & K & A3).
  destruct (G ks s3 l K (adds_dens _ _ _ _ A3 Dv) Sc) as (r & So & (v & s' & Gv & A4 & Dr)).
  exists r. split; [exact So|]. exists v, s'. split; [exact Gv|]. split; [|exact Dr].
  eapply adds_trans; [exact A|]. eapply adds_trans; eassumption.
Qed.

(** ** Functions given by an expression *)
Theorem expression_computes s0 e (F : list pval -> pval -> Prop) :
  (forall s ps p s1, only_adds s0 s -> F ps p -> entered s (HBlock [] e) ps s1 -> means s1 e p) ->
  computes s0 (HBlock [] e) F.
Proof.
  intros H s args ps p A D Fp. destruct (call_does [] e args ps s D) as (s1 & En & G).
  destruct (means_gives s1 e p (H s ps p s1 A Fp En)) as (v & s3 & Gv & Dv & A3).
  destruct En as ((sc & A1) & _).
  assert (Sc : st_scopes s3 = sc :: st_scopes s).
  { destruct A1 as (_ & Sc1 & _), A3 as (_ & Sc3 & _). rewrite Sc3, Sc1. reflexivity. }
  exists v, (set_scopes (st_scopes s) (st_depth s3 - 1) s3). split; [|split].
  - apply G. exists s1, s3. split; [exists O; reflexivity|]. split; [exact Gv|]. exists sc, (st_scopes s).
    split; [exact Sc|reflexivity].
  - pose proof (adds_trans _ _ _ A1 A3) as A4. clear - A4. unfold only_adds in *. cbn in *.
    destruct A4 as (H1 & H2 & H3 & H4 & H5 & H6 & H7 & H8 & H9 & H10 & H11 & H12).
    repeat (split; [first [assumption|reflexivity|lia]|]). assumption.
  - exact Dv.
Qed.

Lemma counts_int z : counts (PScal (str_of_Z z)) (negb (z =? 0)).
Proof. apply counts_bool. apply NumProof2.zero_form_numeral. Qed.
