(** * Random numbers: RR, RC, SH and the variable r *)

From Coq Require Import String List NArith ZArith Bool Arith Lia Permutation.
From Coq Require Import Floats.SpecFloat.
From Verif Require Import PyStr PyRe PyNum Tokens OpFun OpTable Unparse
                          PTypes Ops OpsSeq Apply Spec StrFacts PFacts SeqProof ItemProof RunOp
                          NumProof ListProof HalveProof ArithProof
                          Heap Exec SpecHeap HeapProof ExecRel ExecInv EvalProof
                          SpecScan SpecVars SpecAlias VarProof PureProof AliasProof MutProof SpecRand.
Import ListNotations.
Local Open Scope string_scope.
Local Open Scope list_scope.
Local Open Scope Z_scope.

(** ** Drawing *)

Lemma draw_ok n s : 0 < n -> exists k g, draw n s = Ok k (set_rand g s) /\ 0 <= k < n.
Proof.
  intros P. unfold draw. eexists; eexists. split; [reflexivity|].
  apply Z.mod_pos_bound. exact P.
Qed.

Definition fixed (k : Z) : rng := mkrng (fun _ => k) (fun _ _ => 0).

Lemma draw_fixed n k s :
  0 <= k < n -> exists g, draw n (set_rand (fixed k) s) = Ok k (set_rand g s).
Proof.
  intros P. unfold draw. cbn [st_rand set_rand fixed rng_pick].
  rewrite Z.mod_small by exact P. eexists. reflexivity.
Qed.

Lemma adv_draws s g s' : adv (set_rand g s) s' -> only_draws s s'.
Proof.
  intros A. unfold only_draws. apply adv_only_adds.
  destruct A as (t & d & ->). exists t, d. reflexivity.
Qed.

Lemma yields_rand {A} (m : M A) s Q g :
  yields m (set_rand g s) Q -> exists a s', m (set_rand g s) = Ok a s' /\ only_draws s s' /\ Q a s'.
Proof. intros (a & s' & E & A0 & H). exists a, s'. eauto using adv_draws. Qed.

(** ** Operators whose operands are read *)

Definition reading (o : oper) : bool :=
  negb (o_assign o) && negb (o_map o) && negb (o_fold o) && negb (o_scan o)
  && f_rvals (o_flags o).

Definition direct (o : oper) (v : hval) : bool :=
  negb (h_block v) && negb (expands_x (o_flags o) (XR v)).

Lemma eval_op_direct R o vs s :
  reading o = true -> (length vs <= 2)%nat -> forallb (direct o) vs = true ->
  eval_op R o (map arg_of vs) s = catch_type (call_fun R (o_fun o) (map arg_of vs)) s.
Proof.
  intros P L B. unfold reading in P. split_flags P. unfold eval_op.
  repeat match goal with A : o_assign _ = _ |- _ => rewrite A; clear A
                       | A : o_map _ = _ |- _ => rewrite A; clear A
                       | A : o_fold _ = _ |- _ => rewrite A; clear A
                       | A : o_scan _ = _ |- _ => rewrite A; clear A end.
  assert (E : mmap (prepare R (o_flags o)) (map arg_of vs) s
              = Ok (map (fun v => (arg_of v, f_in_lambda (o_flags o) && h_block v)) vs) s).
  { match goal with H : f_rvals _ = true |- _ => revert H end. clear. intros V.
    induction vs as [|v vs IH]; [reflexivity|]. cbn [map mmap].
    unfold mbind. rewrite prepare_value, IH by exact V. reflexivity. }
  rewrite (bind_step _ _ _ _ _ E).
  assert (E1 : map fst (map (fun v => (arg_of v, f_in_lambda (o_flags o) && h_block v)) vs)
               = map arg_of vs) by (rewrite map_map; reflexivity).
  assert (E2 : existsb snd (map (fun v => (arg_of v, f_in_lambda (o_flags o) && h_block v)) vs)
               = false).
  { clear - B. induction vs as [|v vs IH]; [reflexivity|]. cbn [map existsb snd forallb] in *.
    apply andb_prop in B. destruct B as [B1 B2]. rewrite (IH B2). unfold direct in B1.
    destruct (h_block v); [discriminate|]. rewrite andb_false_r. reflexivity. }
  rewrite E1, E2.
  destruct vs as [|a [|b [|c vs]]]; [reflexivity| | |cbn in L; lia];
    unfold apply_x; cbn [map arg_of]; cbn [forallb] in B; unfold direct in B;
    destruct (expands_x (o_flags o) (XR a)) eqn:Ea;
    try (rewrite andb_false_r in B; discriminate).
  - reflexivity.
  - destruct (expands_x (o_flags o) (XR b)) eqn:Eb; [|reflexivity].
    cbn [negb] in B. rewrite !andb_false_r in B. discriminate.
Qed.

Lemma list_each_op R o v s :
  reading o = true -> h_block v || negb (expands_x (o_flags o) (XR v)) = false ->
  eval_op R o (map arg_of [v]) s
  = catch_type (items <- h_iter v;; each_result R o (fun it => [AVal (XR it)]) items) s.
Proof.
  intros P B. unfold reading in P. split_flags P. unfold eval_op.
  repeat match goal with A : o_assign _ = _ |- _ => rewrite A; clear A
                       | A : o_map _ = _ |- _ => rewrite A; clear A
                       | A : o_fold _ = _ |- _ => rewrite A; clear A
                       | A : o_scan _ = _ |- _ => rewrite A; clear A end.
  apply orb_false_iff in B. destruct B as [B1 B2]. apply negb_false_iff in B2.
  match goal with H : f_rvals _ = true |- _ => rename H into V end.
  assert (E : mmap (prepare R (o_flags o)) (map arg_of [v]) s = Ok [(arg_of v, false)] s).
  { cbn [map mmap]. unfold mbind. rewrite prepare_value by exact V. rewrite B1, andb_false_r. reflexivity. }
  rewrite (bind_step _ _ _ _ _ E). cbn [map fst existsb snd orb]. unfold apply_x. cbn [arg_of]. cbv zeta. rewrite B2. reflexivity.
Qed.

Lemma eval_op_given R o es s vs s' :
  reading o = true -> mmap (rval_tree R) es s = Ok vs s' ->
  eval_op R o (map ATree es) s = eval_op R o (map arg_of vs) s'.
Proof.
  intros P E. unfold reading in P. split_flags P. unfold eval_op.
  repeat match goal with A : o_assign _ = _ |- _ => rewrite A; clear A
                       | A : o_map _ = _ |- _ => rewrite A; clear A
                       | A : o_fold _ = _ |- _ => rewrite A; clear A
                       | A : o_scan _ = _ |- _ => rewrite A; clear A end.
  match goal with H : f_rvals _ = true |- _ => rename H into V end.
  rewrite (bind_step _ _ _ _ _ (prepare_trees _ _ _ _ _ _ V E)).
  assert (E2 : mmap (prepare R (o_flags o)) (map arg_of vs) s'
               = Ok (map (fun v => (arg_of v, f_in_lambda (o_flags o) && h_block v)) vs) s').
  { revert V. clear. intros V.
    induction vs as [|v vs IH]; [reflexivity|]. cbn [map mmap].
    unfold mbind. rewrite prepare_value, IH by exact V. reflexivity. }
  rewrite (bind_step _ _ _ _ _ E2). reflexivity.
Qed.

Section Op.
  Variables (text : string) (es : list (tree hval)) (o : oper).
  Hypothesis F : op_by_arity (length es) (s_ text) = Some o.
  Hypothesis Rd : reading o = true.
  Hypothesis L : (length es <= 2)%nat.

  Lemma op_gives s vs s1 r s' :
    operands s es vs s1 -> forallb (direct o) vs = true ->
    (forall n, call_fun (run n) (o_fun o) (map arg_of vs) s1 = Ok (XR r) s') ->
    gives s (app text es) r s'.
  Proof.
    intros Os B C. unfold app. rewrite F. destruct (operands_fuel _ _ _ _ Os) as [k K].
    pose proof (operands_length _ _ _ _ Os) as Len.
    apply gives_evals. exists (XR r), s'. split; [|reflexivity].
    apply evals_app. exists k. rewrite (eval_op_given _ _ _ _ _ _ Rd (K k ltac:(lia))).
    rewrite eval_op_direct by (try assumption; lia).
    apply (proj2 (catch_ok _ _ _ _)). apply C.
  Qed.

  Lemma op_fails s vs s1 e s' :
    operands s es vs s1 -> forallb (direct o) vs = true -> e <> TypeError ->
    (forall n, call_fun (run n) (o_fun o) (map arg_of vs) s1 = Err (EPy e) s') ->
    fails s (app text es) (EPy e) s'.
  Proof.
    intros Os B NT C. unfold app. rewrite F. destruct (operands_fuel _ _ _ _ Os) as [k K].
    pose proof (operands_length _ _ _ _ Os) as Len.
    apply fails_evals; [discriminate|]. left. exists (S (S k)). rewrite eval_app_eq.
    rewrite (eval_op_given _ _ _ _ _ _ Rd (K k ltac:(lia))).
    rewrite eval_op_direct by (try assumption; lia).
    unfold catch_type. rewrite C. destruct e; congruence.
  Qed.
End Op.

(** ** RR *)

Lemma random_int_ok lo hi s :
  lo < hi ->
  exists k v s', random_int lo hi s = Ok (XR v) s' /\ lo <= k < hi
    /\ den (st_heap s') v (scal_Z k) /\ only_draws s s'.
Proof.
  intros P. unfold random_int, randrange. destruct (hi <=? lo) eqn:C; [lia|].
  destruct (draw_ok (hi - lo) s ltac:(lia)) as (k & g & E & B).
  destruct (yields_rand _ _ _ g (yields_fresh (scal_Z (lo + k)) (set_rand g s)))
    as (v & s' & E2 & A & D).
  exists (lo + k), v, s'. split; [|split; [lia|auto]].
  rewrite (bind_step _ _ _ (lo + k) (set_rand g s)).
  - rewrite (bind_step _ _ _ _ _ E2). reflexivity.
  - rewrite (bind_step _ _ _ _ _ E). reflexivity.
Qed.
Lemma random_int_reach lo hi k s :
  lo <= k < hi ->
  exists v s', random_int lo hi (set_rand (fixed (k - lo)) s) = Ok (XR v) s'
    /\ den (st_heap s') v (scal_Z k).
Proof.
  intros P. unfold random_int, randrange. destruct (hi <=? lo) eqn:C; [lia|].
  destruct (draw_fixed (hi - lo) (k - lo) s ltac:(lia)) as (g & E).
  destruct (yields_fresh (scal_Z k) (set_rand g s)) as (v & s' & E2 & A & D).
  exists v, s'. split; [|exact D].
  rewrite (bind_step _ _ _ k (set_rand g s)).
  - rewrite (bind_step _ _ _ _ _ E2). reflexivity.
  - rewrite (bind_step _ _ _ _ _ E). unfold mret. do 2 f_equal. lia.
Qed.
Lemma random_int_empty lo hi s : hi <= lo -> random_int lo hi s = Err (EPy ValueError) s.
Proof.
  intros P. unfold random_int, randrange. destruct (hi <=? lo) eqn:C; [reflexivity|lia].
Qed.


Lemma int_operand h v p z :
  den h v p -> index_value p z ->
  exists l t, v = HScal l /\ nth_error h l = Some (OS t) /\ scalar_int t = z.
Proof.
  intros D I. destruct (index_scalar_int _ _ I) as (t & -> & E). inversion D; subst. eauto.
Qed.
Lemma load_ok l t s : nth_error (st_heap s) l = Some (OS t) -> load_str l s = Ok t s.
Proof. intros E. unfold load_str, mbind, load. rewrite E. reflexivity. Qed.

Lemma rr2 : exists o, op_by_arity 2 (s_ "RR") = Some o /\ reading o = true
  /\ o_fun o = F_RANDRANGE /\ forall l, direct o (HScal l) = true.
Proof.
  destruct (op_by_arity 2 (s_ "RR")) as [o|] eqn:E; [|vm_compute in E; discriminate].
  exists o. vm_compute in E. injection E as <-. repeat split.
Qed.
Lemma rr1 : exists o, op_by_arity 1 (s_ "RR") = Some o /\ reading o = true
  /\ o_fun o = F_RANDRANGETO /\ forall l, direct o (HScal l) = true.
Proof.
  destruct (op_by_arity 1 (s_ "RR")) as [o|] eqn:E; [|vm_compute in E; discriminate].
  exists o. vm_compute in E. injection E as <-. repeat split.
Qed.

Lemma call_rr2 R la lb ta tb s :
  nth_error (st_heap s) la = Some (OS ta) -> nth_error (st_heap s) lb = Some (OS tb) ->
  call_fun R F_RANDRANGE (map arg_of [HScal la; HScal lb]) s
  = random_int (scalar_int ta) (scalar_int tb) s.
Proof.
  intros Ea Eb. change (RANDRANGE (HScal la) (HScal lb) s
                        = random_int (scalar_int ta) (scalar_int tb) s).
  unfold RANDRANGE. rewrite (bind_step _ _ _ _ _ (load_ok _ _ _ Ea)).
  rewrite (bind_step _ _ _ _ _ (load_ok _ _ _ Eb)). reflexivity.
Qed.
Lemma call_rr1 R lb tb s :
  nth_error (st_heap s) lb = Some (OS tb) ->
  call_fun R F_RANDRANGETO (map arg_of [HScal lb]) s = random_int 0 (scalar_int tb) s.
Proof.
  intros Eb. change (RANDRANGETO (HScal lb) s = random_int 0 (scalar_int tb) s).
  unfold RANDRANGETO. rewrite (bind_step _ _ _ _ _ (load_ok _ _ _ Eb)). reflexivity.
Qed.

Theorem range_ok s e1 e2 v1 v2 s1 p1 p2 a b :
  operands s [e1; e2] [v1; v2] s1 ->
  den (st_heap s1) v1 p1 -> den (st_heap s1) v2 p2 -> index_value p1 a -> index_value p2 b ->
  a < b ->
  exists k v s', gives s (app "RR" [e1; e2]) v s' /\ den (st_heap s') v (scal_Z k)
    /\ a <= k < b /\ only_draws s1 s'.
Proof.
  intros Os D1 D2 I1 I2 Lt. destruct rr2 as (o & F & Rd & Fn & Dr).
  destruct (int_operand _ _ _ _ D1 I1) as (la & ta & -> & Ea & <-).
  destruct (int_operand _ _ _ _ D2 I2) as (lb & tb & -> & Eb & <-).
  destruct (random_int_ok _ _ s1 Lt) as (k & v & s' & E & B & D & A).
  exists k, v, s'. split; [|auto].
  eapply (op_gives _ [e1; e2] o F Rd); [cbn; lia|exact Os|cbn [forallb]; rewrite !Dr; reflexivity|].
  intros n. rewrite Fn, (call_rr2 _ _ _ _ _ _ Ea Eb). exact E.
Qed.
Theorem range_empty s e1 e2 v1 v2 s1 p1 p2 a b :
  operands s [e1; e2] [v1; v2] s1 ->
  den (st_heap s1) v1 p1 -> den (st_heap s1) v2 p2 -> index_value p1 a -> index_value p2 b ->
  b <= a -> fails s (app "RR" [e1; e2]) (EPy ValueError) s1.
Proof.
  intros Os D1 D2 I1 I2 Lt. destruct rr2 as (o & F & Rd & Fn & Dr).
  destruct (int_operand _ _ _ _ D1 I1) as (la & ta & -> & Ea & <-).
  destruct (int_operand _ _ _ _ D2 I2) as (lb & tb & -> & Eb & <-).
  eapply (op_fails _ [e1; e2] o F Rd); [cbn; lia|exact Os|cbn [forallb]; rewrite !Dr; reflexivity|discriminate|].
  intros n. rewrite Fn, (call_rr2 _ _ _ _ _ _ Ea Eb). apply random_int_empty. exact Lt.
Qed.
Lemma operands_objects s vs : operands s (map TVal vs) vs s.
Proof.
  induction vs as [|v vs IH]; [constructor|]. cbn [map]. econstructor; [|exact IH].
  exists 1%nat. reflexivity.
Qed.
Theorem range_reach s v1 v2 p1 p2 a b k :
  den (st_heap s) v1 p1 -> den (st_heap s) v2 p2 -> index_value p1 a -> index_value p2 b ->
  a <= k < b ->
  exists g v s', gives (set_rand g s) (app "RR" [TVal v1; TVal v2]) v s'
    /\ den (st_heap s') v (scal_Z k).
Proof.
  intros D1 D2 I1 I2 Lt. destruct rr2 as (o & F & Rd & Fn & Dr).
  destruct (int_operand _ _ _ _ D1 I1) as (la & ta & -> & Ea & <-).
  destruct (int_operand _ _ _ _ D2 I2) as (lb & tb & -> & Eb & <-).
  destruct (random_int_reach _ _ _ s Lt) as (v & s' & E & D).
  exists (fixed (k - scalar_int ta)), v, s'. split; [|exact D].
  eapply (op_gives _ [TVal (HScal la); TVal (HScal lb)] o F Rd);
    [cbn; lia|apply (operands_objects _ [HScal la; HScal lb])|cbn [forallb]; rewrite !Dr; reflexivity|].
  intros n. rewrite Fn, (call_rr2 _ la lb ta tb); [exact E|exact Ea|exact Eb].
Qed.

Theorem below_ok s e2 v2 s1 p2 b :
  operands s [e2] [v2] s1 -> den (st_heap s1) v2 p2 -> index_value p2 b -> 0 < b ->
  exists k v s', gives s (app "RR" [e2]) v s' /\ den (st_heap s') v (scal_Z k)
    /\ 0 <= k < b /\ only_draws s1 s'.
Proof.
  intros Os D2 I2 Lt. destruct rr1 as (o & F & Rd & Fn & Dr).
  destruct (int_operand _ _ _ _ D2 I2) as (lb & tb & -> & Eb & <-).
  destruct (random_int_ok _ _ s1 Lt) as (k & v & s' & E & B & D & A).
  exists k, v, s'. split; [|auto].
  eapply (op_gives _ [e2] o F Rd); [cbn; lia|exact Os|cbn [forallb]; rewrite !Dr; reflexivity|].
  intros n. rewrite Fn, (call_rr1 _ _ _ _ Eb). exact E.
Qed.
Theorem below_empty s e2 v2 s1 p2 b :
  operands s [e2] [v2] s1 -> den (st_heap s1) v2 p2 -> index_value p2 b -> b <= 0 ->
  fails s (app "RR" [e2]) (EPy ValueError) s1.
Proof.
  intros Os D2 I2 Lt. destruct rr1 as (o & F & Rd & Fn & Dr).
  destruct (int_operand _ _ _ _ D2 I2) as (lb & tb & -> & Eb & <-).
  eapply (op_fails _ [e2] o F Rd); [cbn; lia|exact Os|cbn [forallb]; rewrite !Dr; reflexivity|discriminate|].
  intros n. rewrite Fn, (call_rr1 _ _ _ _ Eb). apply random_int_empty. exact Lt.
Qed.
Theorem below_reach s v2 p2 b k :
  den (st_heap s) v2 p2 -> index_value p2 b -> 0 <= k < b ->
  exists g v s', gives (set_rand g s) (app "RR" [TVal v2]) v s' /\ den (st_heap s') v (scal_Z k).
Proof.
  intros D2 I2 Lt. destruct rr1 as (o & F & Rd & Fn & Dr).
  destruct (int_operand _ _ _ _ D2 I2) as (lb & tb & -> & Eb & <-).
  destruct (random_int_reach _ _ _ s Lt) as (v & s' & E & D).
  exists (fixed (k - 0)), v, s'. split; [|exact D].
  eapply (op_gives _ [TVal (HScal lb)] o F Rd);
    [cbn; lia|apply (operands_objects _ [HScal lb])|cbn [forallb]; rewrite !Dr; reflexivity|].
  intros n. rewrite Fn, (call_rr1 _ lb tb); [exact E|exact Eb].
Qed.

(** On a List each item is a bound. *)
Lemma draws_trans s1 s2 s3 : only_draws s1 s2 -> only_draws s2 s3 -> only_draws s1 s3.
Proof.
  unfold only_draws, only_adds. cbn.
  intros (A1 & A2 & A3 & A4 & A5 & A6 & A7 & A8 & A9 & A10 & _ & (t & A11) & (w & A12))
         (B1 & B2 & B3 & B4 & B5 & B6 & B7 & B8 & B9 & B10 & _ & (t' & B11) & (w' & B12)).
  repeat split; try congruence.
  - exists (t ++ t'). rewrite B11, A11, app_assoc. reflexivity.
  - exists (w ++ w'). rewrite B12, A12, app_assoc. reflexivity.
Qed.
Lemma draws_den s s' v p : only_draws s s' -> den (st_heap s) v p -> den (st_heap s') v p.
Proof.
  intros (_ & _ & _ & _ & _ & _ & _ & _ & _ & _ & _ & [t E] & _) D. rewrite E. apply den_app. exact D.
Qed.
Lemma draws_dens s s' v p : only_draws s s' -> dens (st_heap s) v p -> dens (st_heap s') v p.
Proof.
  intros (_ & _ & _ & _ & _ & _ & _ & _ & _ & _ & _ & [t E] & _) D. rewrite E. apply dens_app. exact D.
Qed.
Lemma draws_refl s : only_draws s s.
Proof. apply (adv_draws s (st_rand s)). destruct s. apply adv_refl. Qed.

Theorem each_below s e l s1 ps bs :
  operands s [e] [HList l] s1 -> den (st_heap s1) (HList l) (PList ps) ->
  Forall2 index_value ps bs -> Forall (fun b => 0 < b) bs ->
  exists ks v s', gives s (app "RR" [e]) v s' /\ den (st_heap s') v (PList (map scal_Z ks))
    /\ Forall2 (fun k b => 0 <= k < b) ks bs /\ only_draws s1 s'.
Proof.
  intros Os D Ib Pb. destruct rr1 as (o & F & Rd & Fn & Dr).
  inversion D as [| |? items ? Nl Ds| | |]; subst.
  assert (Y : forall items s0, dens (st_heap s0) items ps ->
    exists ks vs s', (forall n, mmap (fun it => r <- i_op (run (S n)) o [AVal (XR it)];; to_r r) items s0
                                = Ok vs s')
      /\ dens (st_heap s') vs (map scal_Z ks) /\ Forall2 (fun k b => 0 <= k < b) ks bs
      /\ only_draws s0 s').
  { clear Nl Ds D Os items. revert Pb. induction Ib as [|p b ps bs I0 Ib IH]; intros Pb items s0 Ds.
    - inversion Ds; subst. exists [], [], s0.
      split; [reflexivity|]. split; [constructor|]. split; [constructor|apply draws_refl].
    - inversion Ds as [|it ? its ? D0 Ds0]; subst. inversion Pb as [|? ? Pb0 Pb1]; subst.
      destruct (int_operand _ _ _ _ D0 I0) as (lb & tb & -> & Eb & <-).
      destruct (random_int_ok 0 _ s0 Pb0) as (k & v & s2 & E & B & Dv & A).
      destruct (IH Pb1 its s2 (draws_dens _ _ _ _ A Ds0)) as (ks & vs & s3 & E3 & D3 & B3 & A3).
      exists (k :: ks), (v :: vs), s3.
      split; [|split; [|split; [constructor; assumption|eapply draws_trans; eassumption]]].
      + intros n. cbn [mmap].
        assert (E1 : i_op (run (S n)) o [AVal (XR (HScal lb))] s0 = Ok (XR v) s2).
        { change (eval_op (run n) o (map arg_of [HScal lb]) s0 = Ok (XR v) s2).
          rewrite eval_op_direct; [|exact Rd|cbn; lia|cbn [forallb]; rewrite Dr; reflexivity].
          apply (proj2 (catch_ok _ _ _ _)). rewrite Fn, (call_rr1 _ _ _ _ Eb). exact E. }
        assert (E2 : (r <- i_op (run (S n)) o [AVal (XR (HScal lb))];; to_r r) s0 = Ok v s2).
        { rewrite (bind_step _ _ _ _ _ E1). reflexivity. }
        rewrite (bind_step _ _ _ _ _ E2). rewrite (bind_step _ _ _ _ _ (E3 n)). reflexivity.
      + constructor; [exact (draws_den _ _ _ _ A3 Dv)|exact D3]. }
  destruct (Y items s1 Ds) as (ks & vs & s2 & E2 & D2 & B2 & A2).
  destruct (yields_new_list vs _ s2 D2) as (v & s3 & E3 & A3 & D3).
  exists ks, v, s3. split; [|split; [exact D3|split; [exact B2|]]].
  - unfold app. cbn [length]. rewrite F. destruct (operands_fuel _ _ _ _ Os) as [n K].
    apply gives_evals. exists (XR v), s3. split; [|reflexivity].
    apply evals_app. exists (S n). rewrite (eval_op_given _ _ _ _ _ _ Rd (K (S n) ltac:(lia))).
    rewrite (list_each_op _ o (HList l)); [|exact Rd|].
    2:{ vm_compute in F. injection F as <-. reflexivity. }
    apply (proj2 (catch_ok _ _ _ _)). cbn [h_iter].
    rewrite (bind_step _ _ _ items s1).
    2:{ unfold load_list, mbind, load. rewrite Nl. reflexivity. }
    unfold each_result. rewrite (bind_step _ _ _ _ _ (E2 n)).
    rewrite (bind_step _ _ _ _ _ E3). reflexivity.
  - eapply draws_trans; [exact A2|]. apply (adv_draws s2 (st_rand s2)). destruct s2. exact A3.
Qed.

(** ** RC *)

Lemma elems_h h v p ps : den h v p -> elems p ps ->
  h_iterable v = true /\ h_block v = false.
Proof. intros D El. inversion El; subst; inversion D; subst; split; reflexivity. Qed.

Lemma ints_from_len n : forall z, length (ints_from z n) = n.
Proof. induction n as [|n IH]; intros z; [reflexivity|]. cbn [ints_from length]. rewrite IH. reflexivity. Qed.
Lemma h_len_elems v p ps s : den (st_heap s) v p -> elems p ps ->
  h_len v s = Ok (Some (Z.of_nat (length ps))) s.
Proof.
  intros D El. inversion El; subst; inversion D; subst; cbn [h_len].
  - rewrite (bind_step _ _ _ _ _ (load_ok _ _ _ ltac:(eassumption))). rewrite map_length. reflexivity.
  - match goal with H : nth_error _ _ = _, K : dens _ _ _ |- _ =>
      rewrite (bind_step _ _ _ items s); [rewrite <- (dens_length _ _ _ K); reflexivity|];
      unfold load_list, mbind, load; rewrite H; reflexivity end.
  - rewrite map_length, ints_from_len. unfold mret, lower0. subst z. do 2 f_equal. lia.
Qed.

Lemma rc_op : exists o, op_by_arity 1 (s_ "RC") = Some o /\ reading o = true
  /\ o_fun o = F_RANDCHOICE /\ forall v, h_block v = false -> direct o v = true.
Proof.
  destruct (op_by_arity 1 (s_ "RC")) as [o|] eqn:E; [|vm_compute in E; discriminate].
  exists o. vm_compute in E. injection E as <-. repeat split.
  intros v B. unfold direct. rewrite B. destruct v; reflexivity.
Qed.

Lemma pick_item v p ps k q s :
  den (st_heap s) v p -> elems p ps -> nth_error ps (Z.to_nat k) = Some q -> 0 <= k ->
  yields (o <- h_index v (IInt k);; item <- some_item o;; xret item) s
         (fun x s' => exists w, x = XR w /\ den (st_heap s') w q).
Proof.
  intros D El Nq Pk.
  assert (Lk : k < Z.of_nat (length ps)).
  { assert (H : (Z.to_nat k < length ps)%nat) by (apply nth_error_Some; congruence). lia. }
  eapply yields_bind.
  - eapply yields_index; [exact D|exact El|]. unfold position. rewrite Z.mod_small by lia. exact Nq.
  - intros o s1 A (w & -> & Dw). cbn [some_item].
    eapply yields_bind with (Q := fun x s' => x = w /\ s' = s1); [apply yields_ret; auto|].
    intros x s2 A2 [-> ->]. apply yields_ret. eauto.
Qed.

Theorem choice_ok s e v s1 p ps :
  operands s [e] [v] s1 -> den (st_heap s1) v p -> elems p ps -> ps <> [] ->
  exists q w s', gives s (app "RC" [e]) w s' /\ den (st_heap s') w q /\ In q ps /\ only_draws s1 s'.
Proof.
  intros Os D El NE. destruct rc_op as (o & F & Rd & Fn & Dr).
  destruct (elems_h _ _ _ _ D El) as [It Bl].
  assert (PL : 0 < Z.of_nat (length ps)) by (destruct ps; [congruence|cbn [length]; lia]).
  destruct (draw_ok (Z.of_nat (length ps) - 0) s1 ltac:(lia)) as (k & g & E & B).
  destruct (nth_error ps (Z.to_nat k)) as [q|] eqn:Nq.
  2:{ apply nth_error_None in Nq. lia. }
  destruct (yields_rand _ s1 _ g (pick_item v p ps k q (set_rand g s1) D El Nq ltac:(lia)))
    as (x & s' & E2 & A & w & -> & Dw).
  exists q, w, s'. split; [|split; [exact Dw|split; [eapply nth_error_In; exact Nq|exact A]]].
  eapply (op_gives _ [e] o F Rd);
    [cbn; lia|exact Os|cbn [forallb]; rewrite (Dr v Bl); reflexivity|].
  intros n. rewrite Fn. change (RANDCHOICE v s1 = Ok (XR w) s').
  unfold RANDCHOICE. rewrite It. rewrite (bind_step _ _ _ _ _ (h_len_elems v p ps s1 D El)).
  rewrite (bind_step _ _ _ k (set_rand g s1)); [exact E2|].
  unfold randrange. destruct (Z.of_nat (length ps) <=? 0) eqn:C; [lia|].
  rewrite (bind_step _ _ _ _ _ E). reflexivity.
Qed.
Theorem choice_empty s e v s1 p :
  operands s [e] [v] s1 -> den (st_heap s1) v p -> elems p [] ->
  fails s (app "RC" [e]) (EPy ValueError) s1.
Proof.
  intros Os D El. destruct rc_op as (o & F & Rd & Fn & Dr).
  destruct (elems_h _ _ _ _ D El) as [It Bl].
  eapply (op_fails _ [e] o F Rd);
    [cbn; lia|exact Os|cbn [forallb]; rewrite (Dr v Bl); reflexivity|discriminate|].
  intros n. rewrite Fn. change (RANDCHOICE v s1 = Err (EPy ValueError) s1).
  unfold RANDCHOICE. rewrite It. rewrite (bind_step _ _ _ _ _ (h_len_elems v p [] s1 D El)).
  reflexivity.
Qed.
Theorem choice_reach s v p ps i q :
  den (st_heap s) v p -> elems p ps -> nth_error ps i = Some q ->
  exists g w s', gives (set_rand g s) (app "RC" [TVal v]) w s' /\ den (st_heap s') w q.
Proof.
  intros D El Nq. destruct rc_op as (o & F & Rd & Fn & Dr).
  destruct (elems_h _ _ _ _ D El) as [It Bl].
  assert (PL : (i < length ps)%nat) by (apply nth_error_Some; congruence).
  destruct (draw_fixed (Z.of_nat (length ps) - 0) (Z.of_nat i) s ltac:(lia)) as (g & E).
  destruct (pick_item v p ps (Z.of_nat i) q (set_rand g s) D El) as (x & s' & E2 & A & w & -> & Dw);
    [rewrite Nat2Z.id; exact Nq|lia|].
  exists (fixed (Z.of_nat i)), w, s'. split; [|exact Dw].
  eapply (op_gives _ [TVal v] o F Rd);
    [cbn; lia|apply (operands_objects _ [v])|cbn [forallb]; rewrite (Dr v Bl); reflexivity|].
  intros n. rewrite Fn. set (s0 := set_rand (fixed (Z.of_nat i)) s) in *.
  change (RANDCHOICE v s0 = Ok (XR w) s').
  unfold RANDCHOICE. rewrite It. rewrite (bind_step _ _ _ _ _ (h_len_elems v p ps s0 D El)).
  rewrite (bind_step _ _ _ (Z.of_nat i) (set_rand g s)); [exact E2|].
  unfold randrange. destruct (Z.of_nat (length ps) <=? 0) eqn:C; [lia|].
  rewrite (bind_step _ _ _ _ _ E). reflexivity.
Qed.

(** An item of a List is the object itself. *)
Theorem choice_object s e l items s1 w s' :
  operands s [e] [HList l] s1 -> nth_error (st_heap s1) l = Some (OL items) ->
  gives s (app "RC" [e]) w s' -> In w items.
Proof.
  intros Os Nl G. destruct rc_op as (o & F & Rd & Fn & Dr).
  destruct items as [|x items].
  - exfalso. assert (Fl : fails s (app "RC" [e]) (EPy ValueError) s1).
    { eapply choice_empty; [exact Os|econstructor; [exact Nl|constructor]|constructor]. }
    destruct G as [n1 E1], Fl as [n2 E2].
    pose proof (more_rval n1 (max n1 n2) _ _ _ ltac:(lia) E1 ltac:(discriminate)).
    pose proof (more_rval n2 (max n1 n2) _ _ _ ltac:(lia) E2 ltac:(discriminate)). congruence.
  - destruct (draw_ok (zlen (x :: items) - 0) s1) as (k & g & E & B);
      [unfold zlen; cbn [length]; lia|].
    destruct (nth_error (x :: items) (Z.to_nat k)) as [q|] eqn:Nq.
    2:{ apply nth_error_None in Nq. unfold zlen in B. lia. }
    assert (G2 : gives s (app "RC" [e]) q (set_rand g s1)).
    { eapply (op_gives _ [e] o F Rd); [cbn; lia|exact Os|cbn [forallb]; rewrite Dr; reflexivity|].
      intros n. rewrite Fn. change (RANDCHOICE (HList l) s1 = Ok (XR q) (set_rand g s1)).
      unfold RANDCHOICE. cbn [h_iterable].
      assert (LL : forall s2, st_heap s2 = st_heap s1 -> load_list l s2 = Ok (x :: items) s2).
      { intros s2 H. unfold load_list, mbind, load. rewrite H, Nl. reflexivity. }
      rewrite (bind_step _ _ _ (Some (zlen (x :: items))) s1).
      2:{ cbn [h_len]. rewrite (bind_step _ _ _ _ _ (LL s1 eq_refl)). reflexivity. }
      rewrite (bind_step _ _ _ k (set_rand g s1)).
      2:{ unfold randrange. destruct (zlen (x :: items) <=? 0) eqn:C; [unfold zlen in *; cbn [length] in *; lia|].
          rewrite (bind_step _ _ _ _ _ E). reflexivity. }
      rewrite (bind_step _ _ _ (Some q) (set_rand g s1)).
      2:{ cbn [h_index]. rewrite (bind_step _ _ _ _ _ (LL (set_rand g s1) eq_refl)).
          rewrite seq_index_position. unfold position.
          rewrite Z.mod_small by (unfold zlen in B; lia). rewrite Nq. reflexivity. }
      reflexivity. }
    destruct (gives_fun _ _ _ _ _ _ G2 G) as [-> _]. eapply nth_error_In. exact Nq.
Qed.

(** ** SH *)

Lemma swap_mid {A} (a b c : list A) x y :
  swap_items (a ++ x :: b ++ y :: c) (length a + S (length b)) (length a)
  = a ++ y :: b ++ x :: c.
Proof.
  unfold swap_items.
  assert (E1 : nth_error (a ++ x :: b ++ y :: c) (length a + S (length b)) = Some y).
  { rewrite nth_error_app2 by lia. replace (length a + S (length b) - length a)%nat with (S (length b)) by lia.
    cbn [nth_error]. rewrite nth_error_app2, Nat.sub_diag by lia. reflexivity. }
  assert (E2 : nth_error (a ++ x :: b ++ y :: c) (length a) = Some x).
  { rewrite nth_error_app2, Nat.sub_diag by lia. reflexivity. }
  rewrite E1, E2.
  replace (a ++ x :: b ++ y :: c) with ((a ++ x :: b) ++ y :: c)
    by (rewrite <- app_assoc; reflexivity).
  replace (length a + S (length b))%nat with (length (a ++ x :: b))
    by (rewrite app_length; reflexivity).
  rewrite set_nth_mid, <- app_assoc. cbn [app]. apply set_nth_mid.
Qed.
Lemma swap_self {A} (l : list A) i : swap_items l i i = l.
Proof.
  unfold swap_items. destruct (nth_error l i) as [x|] eqn:E; [|reflexivity].
  apply nth_error_split in E. destruct E as (a & b & -> & <-).
  rewrite set_nth_mid. apply set_nth_mid.
Qed.

(** Two positions of a list. *)
Lemma two_split {A} (l : list A) i j :
  (j < i < length l)%nat ->
  exists a x b y c, l = a ++ x :: b ++ y :: c /\ length a = j /\ (length a + S (length b))%nat = i.
Proof.
  intros H. destruct (nth_error l j) as [x|] eqn:E; [|apply nth_error_None in E; lia].
  apply nth_error_split in E. destruct E as (a & r & -> & La).
  rewrite app_length in H. cbn [length] in H.
  destruct (nth_error r (i - S j)) as [y|] eqn:E2; [|apply nth_error_None in E2; lia].
  apply nth_error_split in E2. destruct E2 as (b & c & -> & Lb).
  exists a, x, b, y, c. split; [reflexivity|]. split; [exact La|lia].
Qed.

Lemma swap_perm {A} (l : list A) i j :
  (j <= i < length l)%nat -> Permutation l (swap_items l i j).
Proof.
  intros H. destruct (Nat.eq_dec j i) as [->|N]; [rewrite swap_self; reflexivity|].
  destruct (two_split l i j ltac:(lia)) as (a & x & b & y & c & -> & <- & <-).
  rewrite swap_mid. apply Permutation_app_head.
  transitivity (x :: y :: b ++ c).
  - apply perm_skip. symmetry. apply Permutation_middle.
  - transitivity (y :: x :: b ++ c); [apply perm_swap|]. apply perm_skip. apply Permutation_middle.
Qed.

Lemma shuffle_perm {A} i : forall (l : list A) s, (i <= length l)%nat ->
  exists g l', shuffle i l s = Ok l' (set_rand g s) /\ Permutation l l'.
Proof.
  induction i as [|i IH]; intros l s H.
  - exists (st_rand s), l. split; [destruct s; reflexivity|reflexivity].
  - destruct i as [|i].
    + exists (st_rand s), l. split; [destruct s; reflexivity|reflexivity].
    + destruct (draw_ok (Z.of_nat (S (S i))) s ltac:(lia)) as (k & g & E & B).
      assert (P : Permutation l (swap_items l (S i) (Z.to_nat k))) by (apply swap_perm; lia).
      destruct (IH (swap_items l (S i) (Z.to_nat k)) (set_rand g s)) as (g' & l' & E2 & P2).
      { rewrite <- (Permutation_length P). lia. }
      exists g', l'. split; [|etransitivity; eassumption].
      cbn [shuffle]. rewrite (bind_step _ _ _ _ _ E). exact E2.
Qed.

(** Every order is possible. *)
Lemma shuffle_reach {A} i : forall (l l' rest : list A),
  length l = i -> Permutation l l' ->
  exists ks, forall pick seed s,
    (forall r, r <> [] -> pick r = nth (length r - 1) ks 0) ->
    exists g, shuffle i (l ++ rest) (set_rand (mkrng pick seed) s) = Ok (l' ++ rest) (set_rand g s).
Proof.
  induction i as [|i IH]; intros l l' rest Len P.
  - destruct l; [|discriminate]. apply Permutation_nil in P. subst.
    exists []. intros. eexists. reflexivity.
  - destruct i as [|i].
    + destruct l as [|x [|y l]]; try discriminate. apply Permutation_length_1_inv in P. subst.
      exists []. intros. eexists. reflexivity.
    + assert (Len' : length l' = S (S i)) by (rewrite <- (Permutation_length P); exact Len).
      destruct (exists_last (l := l')) as (f & x & El'); [destruct l'; discriminate|]. subst l'.
      rewrite app_length, Nat.add_1_r in Len'. injection Len' as Lf.
      assert (I : In x l).
      { eapply Permutation_in; [symmetry; exact P|]. apply in_or_app. right. left. reflexivity. }
      apply in_split in I. destruct I as (a & r & ->).
      rewrite app_length in Len. cbn [length] in Len.
      assert (W : exists l1, swap_items ((a ++ x :: r) ++ rest) (S i) (length a) = l1 ++ x :: rest
                             /\ length l1 = S i /\ Permutation l1 f).
      { assert (P0 : Permutation (a ++ r) f).
        { apply Permutation_cons_inv with (a := x).
          transitivity (a ++ x :: r); [apply Permutation_middle|].
          transitivity (f ++ [x]); [exact P|]. symmetry. apply Permutation_cons_append. }
        destruct (exists_last (l := x :: r)) as (b & y & Er); [discriminate|].
        destruct b as [|x' b].
        - cbn [app] in Er. injection Er as -> ->. exists a. cbn [length] in Len.
          replace (length a) with (S i) by lia. rewrite swap_self. rewrite <- app_assoc.
          split; [reflexivity|]. split; [reflexivity|]. rewrite app_nil_r in P0. exact P0.
        - cbn [app] in Er. injection Er as <- ->. rewrite app_length in Len. cbn [length] in Len.
          exists (a ++ y :: b).
          replace (S i) with (length a + S (length b))%nat by lia.
          assert (Ea : (a ++ x :: b ++ [y]) ++ rest = a ++ x :: b ++ y :: rest).
          { rewrite <- app_assoc, <- app_comm_cons, <- app_assoc. reflexivity. }
          rewrite Ea, swap_mid. rewrite <- app_assoc. cbn [app].
          split; [reflexivity|]. split; [rewrite app_length; reflexivity|].
          transitivity (a ++ b ++ [y]); [|exact P0].
          apply Permutation_app_head. apply Permutation_cons_append. }
      destruct W as (l1 & Sw & L1 & P1).
      destruct (IH l1 f (x :: rest) L1 P1) as (ks & K).
      exists (Z.of_nat (length a) :: ks). intros pick seed s Hp.
      set (n := Z.of_nat (S (S i))).
      assert (E : draw n (set_rand (mkrng pick seed) s)
                  = Ok (Z.of_nat (length a)) (set_rand (mkrng (fun r => pick (n :: r)) seed) s)).
      { unfold draw. cbn [st_rand set_rand rng_pick rng_seed].
        rewrite (Hp [n]) by discriminate. cbn [length Nat.sub nth].
        rewrite Z.mod_small by lia. reflexivity. }
      destruct (K (fun r => pick (n :: r)) seed s) as (g & E2).
      { intros q Nq. rewrite Hp by discriminate. destruct q as [|z q]; [congruence|].
        cbn [length Nat.sub nth]. rewrite Nat.sub_0_r. reflexivity. }
      exists g. cbn [shuffle]. rewrite (bind_step _ _ _ _ _ E).
      rewrite Nat2Z.id, Sw, <- app_assoc. exact E2.
Qed.

Lemma dens_perm h vs vs' : Permutation vs vs' -> forall ps, dens h vs ps ->
  exists ps', Permutation ps ps' /\ dens h vs' ps'.
Proof.
  induction 1 as [|v l l' _ IH|v w l|l l' l2 _ IH1 _ IH2]; intros ps D.
  - exists ps. split; [reflexivity|exact D].
  - inversion D; subst. destruct (IH ps0 ltac:(assumption)) as (q & P & D').
    exists (p :: q). split; [apply perm_skip; exact P|constructor; assumption].
  - inversion D as [|? p ? ps1 D1 D2]; subst. inversion D2 as [|? p2 ? ps2 D3 D4]; subst.
    exists (p2 :: p :: ps2). split; [apply perm_swap|]. repeat constructor; assumption.
  - destruct (IH1 ps D) as (q & P & D1). destruct (IH2 q D1) as (q' & P' & D2).
    exists q'. split; [etransitivity; eassumption|exact D2].
Qed.
Lemma dens_perm_back h ps ps' : Permutation ps ps' -> forall vs, dens h vs ps ->
  exists vs', Permutation vs vs' /\ dens h vs' ps'.
Proof.
  induction 1 as [|v l l' _ IH|v w l|l l' l2 _ IH1 _ IH2]; intros vs D.
  - exists vs. split; [reflexivity|exact D].
  - inversion D; subst. destruct (IH vs0 ltac:(assumption)) as (q & P & D').
    exists (v0 :: q). split; [apply perm_skip; exact P|constructor; assumption].
  - inversion D as [|p ? ps1 ? D1 D2]; subst. inversion D2 as [|p2 ? ps2 ? D3 D4]; subst.
    exists (p2 :: p :: ps2). split; [apply perm_swap|]. repeat constructor; assumption.
  - destruct (IH1 vs D) as (q & P & D1). destruct (IH2 q D1) as (q' & P' & D2).
    exists q'. split; [etransitivity; eassumption|exact D2].
Qed.

Lemma shuffle_rest (v : hval) items qs p ps s :
  den (st_heap s) v p -> elems p ps -> Permutation ps qs -> dens (st_heap s) items qs ->
  yields (match v with
          | HScal _ => ps <- mmap dread items;;
                       p <- of_pm (op_JOIN (PList ps) None);;
                       v <- fresh p;; xret v
          | _ => v <- new_list items;; xret v
          end) s
         (fun x s' => exists w r, x = XR w /\ den (st_heap s') w r /\ reordered p qs r).
Proof.
  intros D El P Ds. destruct El as [t|l|lo u z]; inversion D; subst.
  - symmetry in P. apply Permutation_map_inv in P. destruct P as (t' & -> & P).
    eapply yields_bind; [exact (yields_dreads items _ s Ds)|]. intros qs' s1 A [-> ->].
    eapply yields_bind with (Q := fun r s' => r = PScal t').
    { change (op_JOIN (PList (map (fun c => PScal [c]) t')) None)
        with (join_list None (chars t')). rewrite ListProof.join_chars. apply yields_ret. reflexivity. }
    intros r s2 A2 ->. eapply yields_bind; [apply yields_fresh|]. intros w s3 A3 Dw.
    apply yields_ret. exists w, (PScal t'). split; [reflexivity|]. split; [exact Dw|].
    exists t'. auto.
  - eapply yields_bind; [apply yields_new_list; exact Ds|]. intros w s1 A Dw.
    apply yields_ret. exists w, (PList qs). split; [reflexivity|]. split; [exact Dw|reflexivity].
  - eapply yields_bind; [apply yields_new_list; exact Ds|]. intros w s1 A Dw.
    apply yields_ret. exists w, (PList qs). split; [reflexivity|]. split; [exact Dw|reflexivity].
Qed.

Lemma sh_op : exists o, op_by_arity 1 (s_ "SH") = Some o /\ reading o = true
  /\ o_fun o = F_SHUFFLE /\ forall v, h_block v = false -> direct o v = true.
Proof.
  destruct (op_by_arity 1 (s_ "SH")) as [o|] eqn:E; [|vm_compute in E; discriminate].
  exists o. vm_compute in E. injection E as <-. repeat split.
  intros v B. unfold direct. rewrite B. destruct v; reflexivity.
Qed.

Theorem shuffle_ok s e v s1 p ps :
  operands s [e] [v] s1 -> den (st_heap s1) v p -> elems p ps ->
  exists qs r w s', gives s (app "SH" [e]) w s' /\ den (st_heap s') w r
    /\ Permutation ps qs /\ reordered p qs r /\ only_draws s1 s'.
Proof.
  intros Os D El. destruct sh_op as (o & F & Rd & Fn & Dr).
  destruct (elems_h _ _ _ _ D El) as [It Bl].
  destruct (yields_iter v p ps s1 D (elems_p_iter _ _ El)) as (items & s2 & E2 & A2 & D2).
  destruct (shuffle_perm (length items) items s2 ltac:(lia)) as (g & items' & E3 & P3).
  destruct (dens_perm _ _ _ P3 _ D2) as (qs & Pq & D3).
  destruct (shuffle_rest v items' qs p ps (set_rand g s2)) as (x & s' & E4 & A4 & w & r & -> & Dw & Rr);
    [exact (adv_den _ _ _ _ A2 D)|exact El|exact Pq|exact D3|].
  exists qs, r, w, s'. split; [|split; [exact Dw|split; [exact Pq|split; [exact Rr|]]]].
  - eapply (op_gives _ [e] o F Rd);
      [cbn; lia|exact Os|cbn [forallb]; rewrite (Dr v Bl); reflexivity|].
    intros n. rewrite Fn. change (SHUFFLE v s1 = Ok (XR w) s').
    unfold SHUFFLE. rewrite It. rewrite (bind_step _ _ _ _ _ E2).
    rewrite (bind_step _ _ _ _ _ E3). exact E4.
  - apply adv_draws with (g := g). eapply adv_trans; [|exact A4].
    destruct A2 as (t & d & ->). exists t, d. reflexivity.
Qed.

(** The new order depends on the number of items only. *)
Lemma swap_map {A B} (f : A -> B) l i j :
  swap_items (map f l) i j = map f (swap_items l i j).
Proof.
  unfold swap_items. rewrite !nth_error_map.
  destruct (nth_error l i) as [x|]; [|reflexivity]. destruct (nth_error l j) as [y|]; [|reflexivity].
  cbn [option_map]. unfold set_nth.
  rewrite !map_app, <- !firstn_map, !map_cons, <- !skipn_map, !map_app, <- !firstn_map, !map_cons,
    <- !skipn_map. reflexivity.
Qed.
Lemma shuffle_map {A B} (f : A -> B) i : forall l l' s s',
  shuffle i l s = Ok l' s' -> shuffle i (map f l) s = Ok (map f l') s'.
Proof.
  induction i as [|i IH]; intros l l' s s' E; [injection E as <- <-; reflexivity|].
  destruct i as [|i]; [injection E as <- <-; reflexivity|].
  cbn [shuffle] in *. apply bind_ok in E. destruct E as (k & s1 & E1 & E2).
  rewrite (bind_step _ _ _ _ _ E1), swap_map. apply IH. exact E2.
Qed.

Lemma map_nth_seq {A} (l : list A) d : map (fun i => nth i l d) (seq 0 (length l)) = l.
Proof.
  induction l as [|x l IH]; [reflexivity|]. cbn [length seq map nth].
  rewrite <- seq_shift, map_map. f_equal. exact IH.
Qed.

Lemma dens_nths h vs ps d d' is :
  dens h vs ps -> Forall (fun i => (i < length ps)%nat) is ->
  dens h (map (fun i => nth i vs d) is) (map (fun i => nth i ps d') is).
Proof.
  intros Ds Fo. induction Fo as [|i is Hi Fo IH]; cbn [map]; constructor; [|exact IH].
  clear - Ds Hi. revert i Hi. induction Ds as [|v p vs ps D Ds IH]; intros [|i] Hi; cbn in *;
    try lia; [exact D|]. apply IH. lia.
Qed.

Theorem shuffle_all s v p ps qs :
  den (st_heap s) v p -> elems p ps -> Permutation ps qs ->
  exists g r w s', gives (set_rand g s) (app "SH" [TVal v]) w s' /\ den (st_heap s') w r
    /\ reordered p qs r.
Proof.
  intros D El Pq. destruct sh_op as (o & F & Rd & Fn & Dr).
  destruct (elems_h _ _ _ _ D El) as [It Bl].
  pose proof Pq as Pq0. rewrite <- (map_nth_seq ps PNil) in Pq0. symmetry in Pq0.
  apply Permutation_map_inv in Pq0. destruct Pq0 as (is & Eq & Pi).
  destruct (shuffle_reach (length ps) (seq 0 (length ps)) is [] (seq_length _ _) Pi) as (ks & K).
  rewrite !app_nil_r in K.
  set (g := mkrng (fun r => nth (length r - 1) ks 0) (fun _ _ => 0)).
  destruct (yields_iter v p ps (set_rand g s) D (elems_p_iter _ _ El)) as (items & s2 & E2 & A2 & D2).
  assert (Rg : s2 = set_rand g s2).
  { destruct A2 as (t & d & ->). reflexivity. }
  destruct (K (fun r => nth (length r - 1) ks 0) (fun _ _ => 0) s2 (fun _ _ => eq_refl)) as (g' & E3).
  change (mkrng _ _) with g in E3. rewrite <- Rg in E3.
  pose proof (shuffle_map (fun i => nth i items HNil) _ _ _ _ _ E3) as E4.
  rewrite <- (dens_length _ _ _ D2), map_nth_seq in E4.
  destruct (shuffle_rest v (map (fun i => nth i items HNil) is) qs p ps (set_rand g' s2))
    as (x & s' & E5 & A5 & w & r & -> & Dw & Rr).
  { exact (adv_den (set_rand g s) s2 _ _ A2 D). }
  { exact El. }
  { exact Pq. }
  { rewrite Eq. apply dens_nths; [exact D2|]. apply Forall_forall. intros i Hi.
    apply (Permutation_in _ (Permutation_sym Pi)) in Hi. apply in_seq in Hi. lia. }
  exists g, r, w, s'. split; [|auto].
  eapply (op_gives _ [TVal v] o F Rd);
    [cbn; lia|apply (operands_objects _ [v])|cbn [forallb]; rewrite (Dr v Bl); reflexivity|].
  intros n. rewrite Fn. change (SHUFFLE v (set_rand g s) = Ok (XR w) s').
  unfold SHUFFLE. rewrite It. rewrite (bind_step _ _ _ _ _ E2).
  rewrite (bind_step _ _ _ _ _ E4). exact E5.
Qed.

(** The List is a new one with the same objects in it. *)
Theorem shuffle_objects s e l items s1 :
  operands s [e] [HList l] s1 -> nth_error (st_heap s1) l = Some (OL items) ->
  exists l' items' s', gives s (app "SH" [e]) (HList l') s'
    /\ nth_error (st_heap s1) l' = None /\ nth_error (st_heap s') l' = Some (OL items')
    /\ Permutation items items' /\ nth_error (st_heap s') l = Some (OL items).
Proof.
  intros Os Nl. destruct sh_op as (o & F & Rd & Fn & Dr).
  destruct (shuffle_perm (length items) items s1 ltac:(lia)) as (g & items' & E3 & P3).
  exists (length (st_heap s1)), items', (grow [OL items'] (set_rand g s1)).
  split; [|split; [|split; [|split; [exact P3|]]]].
  - eapply (op_gives _ [e] o F Rd); [cbn; lia|exact Os|cbn [forallb]; rewrite Dr; reflexivity|].
    intros n. rewrite Fn. change (SHUFFLE (HList l) s1
      = Ok (XR (HList (length (st_heap s1)))) (grow [OL items'] (set_rand g s1))).
    unfold SHUFFLE. cbn [h_iterable h_iter].
    rewrite (bind_step _ _ _ items s1).
    2:{ unfold load_list, mbind, load. rewrite Nl. reflexivity. }
    rewrite (bind_step _ _ _ _ _ E3). reflexivity.
  - apply nth_error_None. lia.
  - change (nth_error (st_heap s1 ++ [OL items']) (length (st_heap s1)) = Some (OL items')).
    rewrite nth_error_app2, Nat.sub_diag by lia. reflexivity.
  - change (nth_error (st_heap s1 ++ [OL items']) l = Some (OL items)).
    rewrite nth_error_app1; [exact Nl|]. apply nth_error_Some. congruence.
Qed.

(** ** The variable r *)

Definition r_lval (s : state) : lval := LName (s_ "r") [] (Some (length (st_heap s))).
Lemma eval_r s : evals s (name (s_ "r")) (XL (r_lval s)) (grow [OC None] s).
Proof. exists 1%nat. reflexivity. Qed.

(** Reading [r] for the first time in a state whose generator gives [k]. *)
Lemma get_r s h rest k g :
  st_heap s = h ++ OC None :: rest -> draw (2 ^ 53) s = Ok k (set_rand g s) ->
  exists s', get_lval (LName (s_ "r") [] (Some (length h))) s
      = Ok (HScal (S (length (st_heap s)))) s'
    /\ den (st_heap s') (HScal (S (length (st_heap s)))) (scal_num (NF (random_float k)))
    /\ s' = set_heap (h ++ OC (Some (HScal (length (st_heap s)))) :: rest
                        ++ [OS (str_of_num (NF (random_float k))); OS (str_of_num (NF (random_float k)))])
                     (set_rand g s).
Proof.
  intros H Dw. unfold scal_num. set (t := str_of_num (NF (random_float k))).
  set (n := length (st_heap s)).
  set (s2 := set_heap (h ++ OC (Some (HScal n)) :: rest ++ [OS t]) (set_rand g s)).
  assert (Ln : n = (length h + S (length rest))%nat).
  { unfold n. rewrite H, app_length. reflexivity. }
  exists (set_heap (h ++ OC (Some (HScal n)) :: rest ++ [OS t; OS t]) (set_rand g s)).
  split; [|split; [|reflexivity]].
  - cbn [get_lval].
    change (three_letters (s_ "r")) with false. change (special (s_ "r")) with true. cbv iota.
    rewrite (bind_step _ _ _ tt s eq_refl).
    assert (G : get_special (s_ "r") (Some (length h)) s = Ok (HScal n) s2).
    { unfold get_special. change (str_eqb (s_ "r") (s_ "q")) with false. cbv iota zeta.
      assert (L : load (length h) s = Ok (OC None) s).
      { unfold load. rewrite H, nth_grow0. reflexivity. }
      rewrite (bind_step _ _ _ _ _ L).
      assert (R : (k <- draw (2 ^ 53);; fresh (scal_num (NF (random_float k)))) s
                  = Ok (HScal n) (set_heap (st_heap s ++ [OS t]) (set_rand g s))).
      { rewrite (bind_step _ _ _ _ _ Dw). reflexivity. }
      rewrite (bind_step _ _ _ _ _ R).
      assert (W : store (length h) (OC (Some (HScal n))) (set_heap (st_heap s ++ [OS t]) (set_rand g s))
                  = Ok tt s2).
      { unfold store. cbn [st_heap set_heap]. rewrite H, <- app_assoc, nth_grow0. cbn [nth_error].
        change ((OC None :: rest) ++ [OS t]) with (OC None :: rest ++ [OS t]).
        rewrite hset_grow. reflexivity. }
      rewrite (bind_step _ _ _ _ _ W). reflexivity. }
    rewrite (bind_step _ _ _ (Some (HScal n)) s2).
    2:{ rewrite (bind_step _ _ _ _ _ G). reflexivity. }
    cbn [follow]. rewrite (bind_step _ _ _ _ _ eq_refl). unfold copy. cbn [copy_val].
    change (st_heap s2) with (h ++ OC (Some (HScal n)) :: rest ++ [OS t]).
    assert (Nt : nth_error (h ++ OC (Some (HScal n)) :: rest ++ [OS t]) n = Some (OS t)).
    { rewrite Ln, nth_grow. cbn [nth_error]. apply nth_grow0. }
    rewrite Nt. unfold hnew.
    replace (length (h ++ OC (Some (HScal n)) :: rest ++ [OS t])) with (S n)
      by (rewrite app_length; cbn [length]; rewrite app_length; cbn [length]; lia).
    rewrite <- app_assoc, <- app_comm_cons, <- app_assoc. reflexivity.
  - constructor. cbn [st_heap set_heap].
    replace (S n) with (length h + S (length rest + 1))%nat by lia.
    rewrite nth_grow. cbn [nth_error]. rewrite nth_grow. reflexivity.
Qed.

Lemma draw_mono n s k g t : draw n s = Ok k (set_rand g s) -> draw n (grow t s) = Ok k (set_rand g (grow t s)).
Proof.
  unfold draw. change (st_rand (grow t s)) with (st_rand s). intros E.
  injection E as E1 E2. rewrite E1, E2. reflexivity.
Qed.

Lemma draws_grown s h g :
  (exists t, h = st_heap s ++ t) -> only_draws s (set_heap h (set_rand g s)).
Proof.
  intros Hh. unfold only_draws, only_adds. cbn. repeat (split; [reflexivity|]). split; [exact Hh|].
  exists []. rewrite app_nil_r. reflexivity.
Qed.

Lemma read_r s k g :
  draw (2 ^ 53) s = Ok k (set_rand g s) ->
  exists v s', gives s (name (s_ "r")) v s' /\ den (st_heap s') v (scal_num (NF (random_float k)))
    /\ only_draws s s' /\ st_rand s' = g.
Proof.
  intros E.
  destruct (get_r (grow [OC None] s) (st_heap s) [] k g eq_refl (draw_mono _ _ _ _ _ E))
    as (s' & G & D & ->).
  eexists; eexists. split; [|split; [exact D|split; [|reflexivity]]].
  - apply gives_evals. exists (XL (r_lval s)), (grow [OC None] s). split; [apply eval_r|exact G].
  - apply (draws_grown s _ g). eexists. reflexivity.
Qed.

Lemma draw_any n s : draw n s = Ok (rng_pick (st_rand s) [n] mod n)
  (set_rand (mkrng (fun l => rng_pick (st_rand s) (n :: l)) (rng_seed (st_rand s))) s).
Proof. reflexivity. Qed.

Lemma draw_inv n s k g s0 : draw n s = Ok k (set_rand g s0) ->
  k = rng_pick (st_rand s) [n] mod n
  /\ g = mkrng (fun l => rng_pick (st_rand s) (n :: l)) (rng_seed (st_rand s)).
Proof.
  unfold draw. intros E. injection E as E1 E2. intros. split; congruence.
Qed.

(** [random_float k] is k / 2^53. *)
Lemma shr0 (r : shr_record) e : shr r e 0 = (r, e).
Proof. reflexivity. Qed.

Lemma fraction53 k : 0 <= k < 2 ^ 53 -> is_fraction53 (random_float k) k.
Proof.
  intros [H1 H2]. unfold random_float. destruct k as [|p|p]; [reflexivity| |lia].
  unfold binary_normalize, binary_round.
  assert (D : 0 < Zdigits2 (Zpos p) <= 53).
  { split; [rewrite HalveProof.Zdigits2_log2 by lia; pose proof (Z.log2_nonneg (Zpos p)); lia|].
    rewrite HalveProof.Zdigits2_log2 by lia.
    assert (Z.log2 (Zpos p) < 53) by (apply Z.log2_lt_pow2; lia). lia. }
  change (Zpos (digits2_pos p)) with (Zdigits2 (Zpos p)).
  set (d := Zdigits2 (Zpos p)) in *.
  assert (Fx : fexp prec53 emax1024 (d + -53) = d - 106).
  { unfold fexp, SpecFloat.emin, prec53, emax1024. lia. }
  rewrite Fx.
  set (m' := fst (shl_align p (-53) (d - 106))). set (e' := snd (shl_align p (-53) (d - 106))).
  assert (M : Zpos m' = Zpos p * 2 ^ (53 - d) /\ e' = d - 106).
  { unfold m', e', shl_align. replace (d - 106 - -53) with (- (53 - d)) by lia.
    destruct (53 - d) as [|q|q] eqn:Q; cbn [Z.opp fst snd].
    - split; [rewrite Z.pow_0_r; lia|lia].
    - split; [|lia]. rewrite shift_pos_correct. rewrite Zpower_pos_nat, Zpower_nat_Z, positive_nat_Z. ring.
    - lia. }
  destruct (shl_align p (-53) (d - 106)) as [m1 e1]. cbn [fst snd] in m', e'. subst m' e'.
  destruct M as [M ->].
  assert (D2 : Zdigits2 (Zpos m1) = 53).
  { rewrite M, HalveProof.Zdigits2_shift by lia. fold d. lia. }
  unfold binary_round_aux.
  assert (Sh : shr_fexp prec53 emax1024 (Zpos m1) (d - 106) loc_Exact
               = (shr_record_of_loc (Zpos m1) loc_Exact, d - 106)).
  { unfold shr_fexp. rewrite D2. replace (fexp prec53 emax1024 (53 + (d - 106)) - (d - 106)) with 0;
      [reflexivity|]. unfold fexp, SpecFloat.emin, prec53, emax1024. lia. }
  rewrite Sh. cbn [shr_record_of_loc shr_m loc_of_shr_record round_nearest_even].
  rewrite Sh. cbn [shr_record_of_loc shr_m].
  replace (d - 106 <=? emax1024 - prec53) with true by (unfold emax1024, prec53; lia).
  cbn [is_fraction53]. split; [lia|]. rewrite M. f_equal. f_equal. lia.
Qed.

Theorem read_r_ok s :
  exists k f v s', gives s (name (s_ "r")) v s' /\ den (st_heap s') v (scal_num (NF f))
    /\ is_fraction53 f k /\ 0 <= k < 2 ^ 53 /\ only_draws s s'.
Proof.
  destruct (draw_ok (2 ^ 53) s ltac:(reflexivity)) as (k & g & E & B).
  destruct (read_r s k g E) as (v & s' & G & D & A & _).
  exists k, (random_float k), v, s'. auto using fraction53.
Qed.
Theorem read_r_reach s k :
  0 <= k < 2 ^ 53 ->
  exists g f v s', gives (set_rand g s) (name (s_ "r")) v s'
    /\ den (st_heap s') v (scal_num (NF f)) /\ is_fraction53 f k.
Proof.
  intros B. destruct (draw_fixed (2 ^ 53) k s B) as (g & E).
  destruct (read_r (set_rand (fixed k) s) k g E) as (v & s' & G & D & _).
  exists (fixed k), (random_float k), v, s'. auto using fraction53.
Qed.

(** ** Seeding *)

Lemma executes_app s o args v s' :
  executes s (TApp o args) (Some v) s' <-> gives s (TApp o args) v s'.
Proof.
  unfold executes, gives. split.
  - intros [[|n] E]; [discriminate|]. exists n.
    change (exec_stmt (run n) (TApp o args) s = Ok (Some v) s') in E. cbn [exec_stmt] in E.
    apply bind_ok in E. destruct E as (w & s1 & E & E2). injection E2 as -> ->. exact E.
  - intros [n E]. exists (S n).
    change (exec_stmt (run n) (TApp o args) s = Ok (Some v) s'). cbn [exec_stmt].
    rewrite (bind_step _ _ _ _ _ E). reflexivity.
Qed.

Lemma seeds s e v s3 p :
  gives (grow [OC None] s) e v s3 -> den (st_heap s3) v p ->
  evals s (app ":" [name (s_ "r"); e]) (XL (r_lval s))
        (set_rand (seeded (st_rand s3) (p_str (st_fmt s3) p)) s3).
Proof.
  intros G D. rewrite app_assign, evals_vals2 by reflexivity.
  apply gives_evals in G. destruct G as (xb & s2 & Eb & E2).
  exists (XL (r_lval s)), xb, (grow [OC None] s), s2.
  split; [apply eval_r|]. split; [exact Eb|]. exists 0%nat.
  match goal with |- _ = Ok _ ?S3 => change (ASSIGN (XL (r_lval s)) xb s2 = Ok (XL (r_lval s)) S3) end.
  unfold ASSIGN. rewrite (bind_step _ _ _ _ _ E2).
  match goal with |- _ = Ok _ ?S3 => rewrite (bind_step _ _ _ tt S3); [reflexivity|] end.
  unfold r_lval. cbn [assign]. unfold assign_name.
  change (special (s_ "r")) with true. change (str_eqb (s_ "r") (s_ "r")) with true. cbv iota.
  destruct (yields_dread v p s3 D) as (q & s4 & E4 & _ & -> & ->).
  rewrite (bind_step _ _ _ _ _ E4). reflexivity.
Qed.

(** What [r:e] does when the operand leaves the generator alone. *)
Lemma seed_gives s e v s3 p k g :
  gives (grow [OC None] s) e v s3 -> adv (grow [OC None] s) s3 -> den (st_heap s3) v p ->
  draw (2 ^ 53) (set_rand (seeded (st_rand s) (p_str (st_fmt s) p)) s) = Ok k (set_rand g s) ->
  exists w s', gives s (app ":" [name (s_ "r"); e]) w s'
    /\ den (st_heap s') w (scal_num (NF (random_float k))) /\ only_draws s s' /\ st_rand s' = g.
Proof.
  intros G A D E. destruct A as (t & d & E3).
  assert (Er : st_rand s3 = st_rand s) by (subst s3; reflexivity).
  assert (Ef : st_fmt s3 = st_fmt s) by (subst s3; reflexivity).
  pose proof (seeds s e v s3 p G D) as Ev. rewrite Er, Ef in Ev.
  set (gs := seeded (st_rand s) (p_str (st_fmt s) p)) in *.
  assert (Hh : st_heap (set_rand gs s3) = st_heap s ++ OC None :: t).
  { subst s3. cbn [st_heap set_rand]. cbn. rewrite <- app_assoc. reflexivity. }
  assert (Dr : draw (2 ^ 53) (set_rand gs s3) = Ok k (set_rand g (set_rand gs s3))).
  { destruct (draw_inv _ _ _ _ _ E) as [-> ->]. reflexivity. }
  destruct (get_r _ _ _ _ _ Hh Dr) as (s' & Gr & Dn & ->).
  eexists; eexists. split; [|split; [exact Dn|split; [|reflexivity]]].
  - apply gives_evals. eexists; eexists. split; [exact Ev|]. exact Gr.
  - subst s3. unfold only_draws, only_adds. cbn. repeat (split; [reflexivity|]).
    split; [eexists; reflexivity|]. exists d. reflexivity.
Qed.

Theorem seed_ok s e p :
  means s e p ->
  exists v s' w s'' q,
    executes s (app ":" [name (s_ "r"); e]) (Some v) s' /\ only_draws s s'
    /\ gives (set_rand (seeded (st_rand s) (p_str (st_fmt s) p)) s) (name (s_ "r")) w s''
    /\ den (st_heap s') v q /\ den (st_heap s'') w q /\ st_rand s' = st_rand s''.
Proof.
  intros Me. destruct (reads_gives s e p (grow [OC None] s) (means_reads _ _ _ Me) (adv_grow _ _))
    as (v & s3 & G & A & D).
  set (gs := seeded (st_rand s) (p_str (st_fmt s) p)).
  pose proof (draw_any (2 ^ 53) (set_rand gs s)) as E.
  match type of E with _ = Ok ?k (set_rand ?g _) => set (k0 := k) in E; set (g0 := g) in E end.
  destruct (seed_gives s e v s3 p k0 g0 G A D E) as (w & s' & G1 & D1 & A1 & R1).
  destruct (read_r (set_rand gs s) k0 g0 E) as (w2 & s2 & G2 & D2 & _ & R2).
  exists w, s', w2, s2, (scal_num (NF (random_float k0))).
  rewrite app_assign in *. rewrite executes_app.
  refine (conj G1 (conj A1 (conj G2 (conj D1 (conj D2 _))))). congruence.
Qed.

(** The numbers drawn before do not matter. *)
Theorem seed_forgets s1 s2 e1 e2 p1 p2 :
  same_but_draws s1 s2 -> means s1 e1 p1 -> means s2 e2 p2 ->
  p_str (st_fmt s1) p1 = p_str (st_fmt s2) p2 ->
  exists v1 s1' v2 s2' q,
    executes s1 (app ":" [name (s_ "r"); e1]) (Some v1) s1'
    /\ executes s2 (app ":" [name (s_ "r"); e2]) (Some v2) s2'
    /\ st_rand s1' = st_rand s2' /\ den (st_heap s1') v1 q /\ den (st_heap s2') v2 q.
Proof.
  intros [pick ->] M1 M2 Et.
  set (s2 := set_rand (mkrng pick (rng_seed (st_rand s1))) s1) in *.
  destruct (reads_gives s1 e1 p1 (grow [OC None] s1) (means_reads _ _ _ M1) (adv_grow _ _))
    as (v & s3 & G & A & D).
  destruct (reads_gives s2 e2 p2 (grow [OC None] s2) (means_reads _ _ _ M2) (adv_grow _ _))
    as (v2 & s4 & G2 & A2 & D2).
  set (t := p_str (st_fmt s1) p1) in *.
  pose proof (draw_any (2 ^ 53) (set_rand (seeded (st_rand s1) t) s1)) as E.
  match type of E with _ = Ok ?k (set_rand ?g _) => set (k0 := k) in E; set (g0 := g) in E end.
  destruct (seed_gives s1 e1 v s3 p1 k0 g0 G A D E) as (w & s' & Ga & Da & _ & Ra).
  destruct (seed_gives s2 e2 v2 s4 p2 k0 g0 G2 A2 D2) as (w2 & s'' & Gb & Db & _ & Rb).
  { rewrite <- Et. exact (draw_any (2 ^ 53) (set_rand (seeded (st_rand s2) t) s2)). }
  exists w, s', w2, s'', (scal_num (NF (random_float k0))).
  rewrite !app_assign in *. rewrite !executes_app.
  refine (conj Ga (conj Gb (conj _ (conj Da Db)))). congruence.
Qed.

(** With a literal even the states afterwards are the same. *)
Theorem seed_same s1 s2 k p :
  same_but_draws s1 s2 -> is_literal (t_kind k) = true -> t_kind k <> KName -> of_token k = Val p ->
  exists v s', executes s1 (app ":" [name (s_ "r"); TTok k]) (Some v) s'
    /\ executes s2 (app ":" [name (s_ "r"); TTok k]) (Some v) s'.
Proof.
  intros [pick ->] L NK T.
  set (gv := fun s => alloc_val p (st_heap (grow [OC None] s))).
  assert (Lit : forall s, gives (grow [OC None] s) (TTok k) (fst (gv s)) (set_heap (snd (gv s)) s)
     /\ den (snd (gv s)) (fst (gv s)) p /\ exists t, snd (gv s) = st_heap s ++ OC None :: t).
  { intros s. unfold gv. destruct (yields_fresh p (grow [OC None] s)) as (v & s3 & E & A & D).
    unfold fresh in E. destruct (alloc_val p (st_heap (grow [OC None] s))) as [w h] eqn:Ea.
    injection E as -> <-. cbn [fst snd]. split; [|split; [exact D|]].
    - apply gives_evals. exists (XR v), (set_heap h s). split; [|reflexivity].
      exists 1%nat. change (eval_tree (run 0) (TTok k) (grow [OC None] s) = Ok (XR v) (set_heap h s)).
      cbn [eval_tree].
      assert (Y : (if is_literal (t_kind k) then p0 <- of_res (of_token k);; v0 <- fresh p0;; xret v0
                   else fail EFatal) (grow [OC None] s) = Ok (XR v) (set_heap h s)).
      { rewrite L, T. cbn [of_res]. unfold mbind, mret, fresh. rewrite Ea. reflexivity. }
      destruct (t_kind k); try exact Y. congruence.
    - destruct A as (t & d & E). apply (f_equal st_heap) in E. cbn in E. subst h.
      exists t. rewrite <- app_assoc. reflexivity. }
  assert (K : forall s t, p_str (st_fmt s) p = t ->
     let n := length (snd (gv s)) in
     let g := seeded (st_rand s) t in
     let x := str_of_num (NF (random_float (rng_pick g [2 ^ 53] mod 2 ^ 53))) in
     exists s', gives s (app ":" [name (s_ "r"); TTok k]) (HScal (S n)) s' /\
       forall tt, snd (gv s) = st_heap s ++ OC None :: tt ->
       s' = set_heap (st_heap s ++ OC (Some (HScal n)) :: tt ++ [OS x; OS x])
                     (set_rand (mkrng (fun l => rng_pick g (2 ^ 53 :: l)) (rng_seed g)) s)).
  { intros s t Et n g x. destruct (Lit s) as (G & D & tl & Hs).
    pose proof (seeds s (TTok k) _ _ p G D) as Ev.
    change (st_rand (set_heap (snd (gv s)) s)) with (st_rand s) in Ev.
    change (st_fmt (set_heap (snd (gv s)) s)) with (st_fmt s) in Ev. rewrite Et in Ev. fold g in Ev.
    destruct (get_r (set_rand g (set_heap (snd (gv s)) s)) (st_heap s) tl _ _ Hs (draw_any _ _))
      as (s' & Gr & _ & E').
    exists s'. split.
    - apply gives_evals. eexists; eexists. split; [exact Ev|exact Gr].
    - intros tl' Hs'. rewrite Hs in Hs'. apply app_inv_head in Hs'. injection Hs' as <-. exact E'. }
  destruct (Lit s1) as (_ & _ & tl & Hs).
  set (s2 := set_rand (mkrng pick (rng_seed (st_rand s1))) s1).
  destruct (K s1 (p_str (st_fmt s1) p) eq_refl) as (sa & Ga & Ea). specialize (Ea tl Hs).
  destruct (K s2 (p_str (st_fmt s1) p) eq_refl) as (sb & Gb & Eb). specialize (Eb tl Hs).
  exists (HScal (S (length (snd (gv s1))))), sa. rewrite !app_assign in *. rewrite !executes_app.
  split; [exact Ga|]. replace sa with sb; [exact Gb|]. rewrite Ea, Eb. reflexivity.
Qed.
