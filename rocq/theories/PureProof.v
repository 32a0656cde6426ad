(** * Expressions without side effects *)

From Coq Require Import String List NArith ZArith Bool Arith Lia.
From Verif Require Import PyStr PyRe PyNum Tokens OpFun OpTable Unparse
                          PTypes Ops OpsSeq Apply Spec StrFacts PFacts SeqProof ItemProof RunOp
                          Heap Exec SpecHeap HeapProof ExecRel ExecInv EvalProof
                          SpecScan SpecVars VarProof.
Import ListNotations.
Local Open Scope string_scope.
Local Open Scope list_scope.
Local Open Scope Z_scope.

Lemma operands_fuel s es vs s1 :
  operands s es vs s1 ->
  exists n, forall m, (n <= m)%nat -> mmap (rval_tree (run m)) es s = Ok vs s1.
Proof.
  induction 1 as [s|s e v s1 es vs s2 [k E] _ [n IH]].
  - exists O. reflexivity.
  - exists (max k n). intros m L. cbn [mmap].
    rewrite (bind_step _ _ _ _ _ (more_rval k m _ _ _ ltac:(lia) E ltac:(discriminate))).
    rewrite (bind_step _ _ _ _ _ (IH m ltac:(lia))). reflexivity.
Qed.
Lemma operands_length s es vs s1 : operands s es vs s1 -> length vs = length es.
Proof. induction 1; cbn; congruence. Qed.
Lemma operands_fmt s es vs s1 : operands s es vs s1 -> st_fmt s1 = st_fmt s.
Proof.
  induction 1 as [|s e v s1 es vs s2 G _ IH]; [reflexivity|].
  rewrite IH. apply gives_io in G. apply G.
Qed.

Lemma prepare_tree R fl e s v s' :
  f_rvals fl = true -> rval_tree R e s = Ok v s' ->
  prepare R fl (ATree e) s = Ok (arg_of v, f_in_lambda fl && h_block v) s'.
Proof.
  intros H E. rewrite <- (prepare_value R fl v s' H).
  unfold prepare. rewrite H. cbn [orb].
  unfold rval_tree, rval_arg_h in E. unfold mbind in E.
  destruct (rval_arg R (ATree e) s) as [x s1|er s1|] eqn:E1; try discriminate.
  rewrite (bind_step _ _ _ _ _ E1). unfold arg_of at 1. cbn [rval_arg rval_x].
  assert (X : x = XR v /\ s1 = s').
  { assert (Y : forall lv, x <> XL lv).
    { intros lv ->. unfold rval_arg in E1.
      assert (Z : forall t, (x <- i_eval R t;; rval_x x) s = Ok (XL lv) s1 -> False).
      { intros t F. unfold mbind in F. destruct (i_eval R t s) as [y s0|er s0|]; try discriminate.
        destruct y; cbn [rval_x] in F; try discriminate.
        unfold mbind in F. destruct (get_lval l s0); discriminate. }
      destruct e; try (exact (Z _ E1)). discriminate. }
    destruct x as [w|lv|o]; cbn [rval_h] in E.
    - unfold mret in E. injection E as -> ->. auto.
    - exfalso. eapply Y. reflexivity.
    - discriminate. }
  destruct X as [-> ->]. reflexivity.
Qed.
Lemma prepare_trees R fl es : forall s vs s',
  f_rvals fl = true -> mmap (rval_tree R) es s = Ok vs s' ->
  mmap (prepare R fl) (map ATree es) s
  = Ok (map (fun v => (arg_of v, f_in_lambda fl && h_block v)) vs) s'.
Proof.
  induction es as [|e es IH]; intros s vs s' H E; cbn [mmap map] in *.
  - injection E as <- <-. reflexivity.
  - bind_inv E. bind_inv E. injection E as <- <-.
    rewrite (bind_step _ _ _ _ _ (prepare_tree _ _ _ _ _ _ H E0)).
    rewrite (bind_step _ _ _ _ _ (IH _ _ _ H E1)). reflexivity.
Qed.

(** Operands as expressions or as the objects they gave. *)
Lemma eval_op_operands R o es s vs s' :
  value_op o (length vs) -> mmap (rval_tree R) es s = Ok vs s' ->
  eval_op R o (map ATree es) s = eval_op R o (map arg_of vs) s'.
Proof.
  intros V E. unfold eval_op.
  rewrite (vo_assign _ _ V), (vo_map _ _ V), (vo_fold _ _ V), (vo_scan _ _ V).
  rewrite (bind_step _ _ _ _ _ (prepare_trees _ _ _ _ _ _ (vo_rvals _ _ V) E)).
  assert (E2 : mmap (prepare R (o_flags o)) (map arg_of vs) s'
               = Ok (map (fun v => (arg_of v, f_in_lambda (o_flags o) && h_block v)) vs) s').
  { generalize (vo_rvals _ _ V). clear. intros V.
    induction vs as [|v vs IH]; [reflexivity|]. cbn [map mmap].
    unfold mbind. rewrite prepare_value, IH by exact V. reflexivity. }
  rewrite (bind_step _ _ _ _ _ E2). reflexivity.
Qed.

Lemma caught_reported e : caught e = reported (EPy e).
Proof. destruct e; reflexivity. Qed.

Theorem value_result text es s vs s1 ps o :
  op_by_arity (length es) (s_ text) = Some o -> value_op o (length es) ->
  operands s es vs s1 -> dens (st_heap s1) vs ps ->
  match snd (run_op (st_fmt s) text ps) with
  | Val p => exists v s', evals s (app text es) (XR v) s' /\ den (st_heap s') v p /\ adv s1 s'
  | Exn Hang => True
  | Exn e => exists s', fails s (app text es) (reported (EPy e)) s' /\ adv s1 s'
  end.
Proof.
  intros F V Os D. destruct (operands_fuel _ _ _ _ Os) as [k K].
  pose proof (operands_length _ _ _ _ Os) as Len.
  pose proof (dens_length _ _ _ D) as Len2.
  unfold run_op, app. rewrite <- Len2, Len, F.
  set (d := S (fold_right (fun v n => (pdepth v + n)%nat) O ps)).
  set (n := max k d).
  rewrite <- Len in V.
  pose proof (eval_op_follows o d n vs ps s1 ltac:(lia) V D) as H.
  rewrite (operands_fmt _ _ _ _ Os) in H.
  assert (U : i_eval (run (S (S n))) (TApp o es) s = eval_op (run n) o (map arg_of vs) s1).
  { rewrite eval_app_eq. apply eval_op_operands; [exact V|]. apply K. lia. }
  unfold apply_op. fold d. unfold follows in H.
  destruct (snd (apply_fuel (st_fmt s) o d ps)) as [p|e].
  - destruct H as (x & s' & E & A & v & -> & Dv). exists v, s'.
    split; [|auto]. exists (S (S n)). rewrite U. exact E.
  - assert (G : (exists s', eval_op (run n) o (map arg_of vs) s1 = Err (caught e) s' /\ adv s1 s') ->
       exists s', fails s (TApp o es) (reported (EPy e)) s' /\ adv s1 s').
    { intros (s' & E & A). exists s'. split; [|exact A].
      apply fails_evals; [discriminate|]. left. exists (S (S n)). rewrite U, E, caught_reported.
      reflexivity. }
    destruct e; try exact I; exact (G H).
Qed.

(** ** Expressions built from literals, variables and such operators *)

Lemma means_rect_nested (s : state) (P : tree hval -> pval -> Prop) :
  (forall v p, den (st_heap s) v p -> P (TVal v) p) ->
  (forall k p, is_literal (t_kind k) = true -> t_kind k <> KName -> of_token k = Val p ->
     P (TTok k) p) ->
  (forall x p, ordinary s x -> var s x p -> P (name x) p) ->
  (forall text es ps p, value_operator text (length es) -> Forall2 P es ps ->
     snd (run_op (st_fmt s) text ps) = Val p -> P (app text es) p) ->
  (forall e p, P e p -> P (TApp op_paren [e]) p) ->
  (forall es ps, Forall2 P es ps -> P (display es) (PList ps)) ->
  forall e p, means s e p -> P e p.
Proof.
  intros H1 H2 H3 H4 H5 H6. fix IH 3. intros e p M.
  assert (L : forall es ps, Forall2 (means s) es ps -> Forall2 P es ps).
  { fix IHl 3. intros es ps F. destruct F as [|e0 p0 es ps M0 F]; constructor;
      [exact (IH _ _ M0)|exact (IHl _ _ F)]. }
  destruct M as [v p D|k p E1 E2 E3|x p O V|text es ps p V F E|e p M|es ps F].
  - apply H1; assumption.
  - apply H2; assumption.
  - apply H3; assumption.
  - apply (H4 text es ps p V (L _ _ F) E).
  - apply H5. exact (IH _ _ M).
  - apply H6. exact (L _ _ F).
Qed.

(** Reading [x] gives [p], also later. *)
Definition readable (x : xval) (p : pval) (s : state) : Prop :=
  forall s0, adv s s0 -> yields (rval_h x) s0 (fun v s' => den (st_heap s') v p).

Lemma readable_adv x p s s' : readable x p s -> adv s s' -> readable x p s'.
Proof. intros R A s0 A0. apply R. eapply adv_trans; eassumption. Qed.
Lemma readable_value v p s : den (st_heap s) v p -> readable (XR v) p s.
Proof.
  intros D s0 A. apply yields_ret. exact (adv_den _ _ _ _ A D).
Qed.

Definition reads (s : state) (e : tree hval) (p : pval) : Prop :=
  forall s0, adv s s0 -> exists x s1, evals s0 e x s1 /\ adv s0 s1 /\ readable x p s1.
Definition reads_all (s : state) (es : list (tree hval)) (ps : list pval) : Prop :=
  Forall2 (reads s) es ps.

Lemma reads_gives s e p s0 :
  reads s e p -> adv s s0 ->
  exists v s1, gives s0 e v s1 /\ adv s0 s1 /\ den (st_heap s1) v p.
Proof.
  intros R A. destruct (R s0 A) as (x & s1 & E & A1 & Rd).
  destruct (Rd s1 (adv_refl _)) as (v & s2 & E2 & A2 & D). exists v, s2.
  split; [apply gives_evals; eauto|]. split; [eapply adv_trans; eassumption|exact D].
Qed.

Lemma reads_operands s es ps :
  reads_all s es ps -> forall s0, adv s s0 ->
  exists vs s1, operands s0 es vs s1 /\ adv s0 s1 /\ dens (st_heap s1) vs ps.
Proof.
  intros F. induction F as [|e p es ps R F IH]; intros s0 A.
  - exists [], s0. split; [constructor|]. split; [apply adv_refl|constructor].
  - destruct (reads_gives _ _ _ _ R A) as (v & s1 & G & A1 & D).
    destruct (IH s1 (adv_trans _ _ _ A A1)) as (vs & s2 & Os & A2 & Ds).
    exists (v :: vs), s2. split; [econstructor; eassumption|].
    split; [eapply adv_trans; eassumption|]. constructor; [|exact Ds].
    exact (adv_den _ _ _ _ A2 D).
Qed.

(** Evaluating the operands without reading them. *)
Lemma reads_evals s es ps :
  reads_all s es ps -> forall s0, adv s s0 ->
  exists xs s1 n, (forall m, (n <= m)%nat -> mmap (eval_arg (run m)) (map ATree es) s0 = Ok xs s1)
    /\ adv s0 s1 /\ Forall2 (fun x p => readable x p s1) xs ps.
Proof.
  intros F. induction F as [|e p es ps R F IH]; intros s0 A.
  - exists [], s0, O. split; [reflexivity|]. split; [apply adv_refl|constructor].
  - destruct (R s0 A) as (x & s1 & [k E] & A1 & Rd).
    destruct (IH s1 (adv_trans _ _ _ A A1)) as (xs & s2 & n & E2 & A2 & Rs).
    exists (x :: xs), s2, (max k n). split; [|split].
    + intros m L. cbn [map mmap eval_arg].
      rewrite (bind_step _ _ _ _ _ (more_eval k m _ _ _ ltac:(lia) E ltac:(discriminate))).
      rewrite (bind_step _ _ _ _ _ (E2 m ltac:(lia))). reflexivity.
    + eapply adv_trans; eassumption.
    + constructor; [eapply readable_adv; eassumption|exact Rs].
Qed.

Lemma readable_all s xs ps :
  Forall2 (fun x p => readable x p s) xs ps ->
  forall s0, adv s s0 ->
  yields (mmap rval_h xs) s0 (fun vs s' => dens (st_heap s') vs ps).
Proof.
  induction 1 as [|x p xs ps R F IH]; intros s0 A; cbn [mmap].
  - apply yields_ret. constructor.
  - eapply yields_bind; [exact (R s0 A)|]. intros v s1 A1 D. cbv beta in D.
    eapply yields_bind; [exact (IH s1 (adv_trans _ _ _ A A1))|]. intros vs s2 A2 Ds.
    cbv beta in Ds. apply yields_ret. constructor; [exact (adv_den _ _ _ _ A2 D)|exact Ds].
Qed.

Lemma all_lvals_map xs lvs : all_lvals xs = Some lvs -> xs = map XL lvs.
Proof.
  revert lvs. induction xs as [|x xs IH]; intros lvs H; cbn [all_lvals] in H.
  - injection H as <-. reflexivity.
  - destruct x; try discriminate. destruct (all_lvals xs) as [l'|]; [|discriminate].
    injection H as <-. cbn [map]. f_equal. apply IH. reflexivity.
Qed.
Lemma mmap_get_lval lvs s : mmap get_lval lvs s = mmap rval_h (map XL lvs) s.
Proof.
  revert s. induction lvs as [|l lvs IH]; intros s; [reflexivity|]. cbn [map mmap rval_h].
  unfold mbind. destruct (get_lval l s) as [v s1|e s1|]; try reflexivity. rewrite IH. reflexivity.
Qed.

Theorem means_reads s e p : means s e p -> reads s e p.
Proof.
  intros M. apply (means_rect_nested s (reads s)) with (7 := M).
  - intros v q D s0 A. exists (XR v), s0. split; [exists 1%nat; reflexivity|].
    split; [apply adv_refl|]. apply readable_value. exact (adv_den _ _ _ _ A D).
  - intros k q E1 E2 E3 s0 A.
    destruct (yields_fresh q s0) as (v & s1 & E & A1 & D). exists (XR v), s1.
    split; [|split; [exact A1|apply readable_value; exact D]].
    exists 1%nat. change (eval_tree (run 0) (TTok k) s0 = Ok (XR v) s1). cbn [eval_tree].
    assert (Y : (if is_literal (t_kind k) then p0 <- of_res (of_token k);; v0 <- fresh p0;; xret v0
                 else fail EFatal) s0 = Ok (XR v) s1).
    { rewrite E1, E3. cbn [of_res]. unfold mbind, mret. rewrite E. reflexivity. }
    destruct (t_kind k); try exact Y. congruence.
  - intros x q O V s0 A. exists (XL (LName x [] None)), s0.
    split; [exists 1%nat; apply eval_name; exact (adv_ordinary _ _ _ A O)|].
    split; [apply adv_refl|]. intros s1 A1. cbn [rval_h].
    assert (A01 : adv s s1) by (eapply adv_trans; eassumption).
    destruct (get_name_ok s1 x q (adv_ordinary _ _ _ A01 O) (adv_var _ _ _ _ A01 V))
      as (v & s2 & E & A2 & D & _).
    exists v, s2. auto.
  - intros text es ps q (o & Fo & Vo) F E s0 A.
    destruct (reads_operands s es ps F s0 A) as (vs & s1 & Os & A1 & Ds).
    pose proof (value_result text es s0 vs s1 ps o Fo Vo Os Ds) as H.
    rewrite (adv_fmt _ _ A), E in H. destruct H as (v & s2 & G & D & A2).
    exists (XR v), s2. split; [exact G|]. split; [eapply adv_trans; eassumption|].
    apply readable_value. exact D.
  - intros e0 q R s0 A. destruct (R s0 A) as (x & s1 & [n E] & A1 & Rd).
    exists x, s1. split; [|auto]. apply evals_app. exists n.
    rewrite eval_op_vals by reflexivity. cbn [map mmap eval_arg].
    unfold mbind. rewrite E. unfold mret. reflexivity.
  - intros es ps F s0 A.
    destruct (reads_evals s es ps F s0 A) as (xs & s1 & n & E & A1 & Rs).
    assert (H : exists x s2, LIST xs s1 = Ok x s2 /\ adv s1 s2 /\ readable x (PList ps) s2).
    { assert (G : exists x s2, (vs <- mmap rval_h xs;; v <- new_list vs;; xret v) s1 = Ok x s2
                   /\ adv s1 s2 /\ readable x (PList ps) s2).
      { destruct (readable_all s1 xs ps Rs s1 (adv_refl _)) as (vs & s2 & E2 & A2 & Ds).
        destruct (new_list_ok vs s2 ps Ds) as (w & t & E3 & D3 & _).
        exists (XR w), (grow t s2). rewrite (bind_step _ _ _ _ _ E2), (bind_step _ _ _ _ _ E3).
        split; [reflexivity|]. split; [eapply adv_trans; [exact A2|apply adv_grow]|].
        apply readable_value. exact D3. }
      unfold LIST. destruct xs as [|x0 xs]; [exact G|].
      destruct (all_lvals (x0 :: xs)) as [lvs|] eqn:L; [|exact G].
      apply all_lvals_map in L. exists (XL (LList lvs [])), s1.
      split; [reflexivity|]. split; [apply adv_refl|]. intros s2 A2. cbn [rval_h get_lval].
      eapply yields_bind with (Q := fun vs s' => dens (st_heap s') vs ps).
      - pose proof (readable_all s1 _ ps Rs s2 A2) as Y. rewrite L in Y.
        destruct Y as (vs & s3 & E3 & A3 & D3). exists vs, s3.
        rewrite mmap_get_lval. auto.
      - intros vs s3 A3 D3. destruct (new_list_ok vs s3 ps D3) as (w & t & E4 & D4 & _).
        exists w, (grow t s3). split; [exact E4|]. split; [apply adv_grow|exact D4]. }
    destruct H as (x & s2 & E2 & A2 & Rd). exists x, s2.
    split; [|split; [eapply adv_trans; eassumption|exact Rd]].
    apply evals_app. exists n. rewrite eval_op_vals by reflexivity.
    rewrite (bind_step _ _ _ _ _ (E n ltac:(lia))). apply (proj2 (catch_ok _ _ _ _)).
    change ((xs0 <- mmap (eval_arg (run n)) (map AVal xs);; LIST xs0) s1 = Ok x s2).
    rewrite (bind_step _ _ _ _ _ (mmap_eval_vals _ _ _)). exact E2.
Qed.

Theorem means_gives s e p :
  means s e p -> exists v s', gives s e v s' /\ den (st_heap s') v p /\ only_adds s s'.
Proof.
  intros M. destruct (reads_gives s e p s (means_reads _ _ _ M) (adv_refl _))
    as (v & s1 & G & A & D).
  exists v, s1. split; [exact G|]. split; [exact D|apply adv_only_adds; exact A].
Qed.
