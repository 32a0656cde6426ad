(** * Compute-and-assign and mapped operators: proofs *)

From Coq Require Import String List NArith ZArith Bool Arith Lia.
From Verif Require Import PyStr PyRe PyNum Tokens OpFun OpTable Parse Unparse
                          PTypes Ops OpsSeq Apply Spec StrFacts PFacts RunOp
                          Heap Exec SpecHeap HeapProof ExecRel ExecInv EvalProof
                          SpecScan SpecRun SpecVars VarProof CtlProof PureProof LoopProof SpecMap MapProof
                          SpecMeta SpecAug.
From Verif Require MetaProof MutProof ItemProof.
Import ListNotations.
Local Open Scope string_scope.
Local Open Scope list_scope.
Local Open Scope Z_scope.

(** Every operator evaluates its first operand first and only once, or not at
    all. *)
Definition first_operand (o : oper) (n : nat) : bool :=
  f_rvals (o_flags o) || f_vals (o_flags o)
  || o_map o || o_fold o || o_scan o
  || match o_fun o, n with F_AND, 2%nat | F_OR, 2%nat | F_IFTE, 3%nat => true | _, _ => false end.

Lemma first_table text n o :
  op_by_arity n (s_ text) = Some o -> o_assign o = false /\ first_operand o n = true.
Proof.
  intros F.
  assert (H : forallb (fun o => negb (o_assign o) && first_operand o (o_arity o)) all_ops = true)
    by (vm_compute; reflexivity).
  assert (I : In o all_ops /\ o_arity o = n).
  { unfold op_by_arity in F. apply find_some in F. destruct F as [I E].
    apply andb_prop in E. destruct E as [E _].
    split; [apply in_rev; exact I|apply Nat.eqb_eq; exact E]. }
  destruct I as [I <-]. rewrite forallb_forall in H. specialize (H o I).
  apply andb_prop in H. destruct H as [H1 H2]. split; [apply negb_true_iff; exact H1|exact H2].
Qed.

Lemma first_any o n : any_operator o n -> o_assign o = false /\ first_operand o n = true.
Proof.
  assert (K : forall b, (b || true)%bool = true) by (intros []; reflexivity).
  induction 1 as [text n o F|text o F|text o F|o n _ [IH _]].
  - eapply first_table; exact F.
  - split; [apply (first_table _ _ _ F)|]. unfold first_operand, op_set_fold.
    cbn [o_flags o_map o_fold o_scan o_fun]. rewrite K. reflexivity.
  - split; [apply (first_table _ _ _ F)|]. unfold first_operand, op_set_scan.
    cbn [o_flags o_map o_fold o_scan o_fun]. rewrite K. reflexivity.
  - split; [exact IH|]. unfold first_operand, op_set_map.
    cbn [o_flags o_map o_fold o_scan o_fun]. rewrite K. reflexivity.
Qed.

Definition lv (x : str) : xval := XL (LName x [] None).

(** The first operand as a name or as its lvalue. *)
Lemma operand_lval n o x es s :
  ordinary s x -> o_assign o = false -> first_operand o (S (length es)) = true ->
  eval_op (run (S n)) o (map ATree (name x :: es)) s
  = eval_op (run (S n)) o (AVal (lv x) :: map ATree es) s.
Proof.
  intros O Na Fi. pose proof (eval_name n s x O) as E.
  assert (R1 : rval_arg (run (S n)) (ATree (name x)) s = rval_arg (run (S n)) (AVal (lv x)) s).
  { unfold rval_arg. change (match name x with TOpr o0 => mret (XO o0) | _ => _ end)
      with (xx <- i_eval (run (S n)) (name x);; rval_x xx). apply (bind_step _ _ _ _ _ E). }
  assert (R2 : rval_arg_h (run (S n)) (ATree (name x)) s = rval_arg_h (run (S n)) (AVal (lv x)) s).
  { unfold rval_arg_h, mbind. rewrite R1. reflexivity. }
  cbn [map]. unfold eval_op. rewrite Na.
  destruct (o_map o) eqn:Om.
  { unfold MAPMETA, mbind. rewrite R2. reflexivity. }
  destruct (o_fold o) eqn:Of.
  { unfold FOLDMETA, mbind. rewrite R2. reflexivity. }
  destruct (o_scan o) eqn:Os.
  { unfold SCANMETA, mbind. rewrite R2. reflexivity. }
  destruct (f_rvals (o_flags o) || f_vals (o_flags o)) eqn:Fl.
  - assert (P : prepare (run (S n)) (o_flags o) (ATree (name x)) s
                = prepare (run (S n)) (o_flags o) (AVal (lv x)) s).
    { unfold prepare. rewrite Fl. destruct (f_rvals (o_flags o)).
      - unfold mbind. rewrite R1. reflexivity.
      - unfold mbind. cbn [eval_arg]. rewrite E. reflexivity. }
    cbn [mmap]. unfold mbind. rewrite P. reflexivity.
  - assert (P : forall l s0, mmap (prepare (run (S n)) (o_flags o)) l s0 = Ok (map (fun a => (a, false)) l) s0).
    { induction l as [|a l IH]; intros s0; [reflexivity|]. cbn [mmap map]. unfold mbind.
      unfold prepare at 1. rewrite Fl. unfold mret. rewrite IH. reflexivity. }
    rewrite !(bind_step _ _ _ _ _ (P _ _)).
    assert (B : forall l : list arg, existsb snd (map (fun a => (a, false)) l) = false).
    { induction l as [|a l IH]; [reflexivity|exact IH]. }
    rewrite !B. rewrite !map_map. cbn [fst]. rewrite !map_id.
    unfold first_operand in Fi. rewrite Fl, Om, Of, Os in Fi. cbn [orb] in Fi.
    unfold catch_type. unfold apply_x.
    destruct es as [|b [|c [|d rest]]]; cbn [length map] in Fi |- *.
    + destruct (o_fun o); discriminate.
    + assert (C : call_fun (run (S n)) (o_fun o) [ATree (name x); ATree b] s
                  = call_fun (run (S n)) (o_fun o) [AVal (lv x); ATree b] s).
      { destruct (o_fun o); try discriminate; cbn [call_fun]; unfold mbind; rewrite R2; reflexivity. }
      rewrite C. reflexivity.
    + assert (C : call_fun (run (S n)) (o_fun o) [ATree (name x); ATree b; ATree c] s
                  = call_fun (run (S n)) (o_fun o) [AVal (lv x); ATree b; ATree c] s).
      { destruct (o_fun o); try discriminate; cbn [call_fun]; unfold mbind; rewrite R2; reflexivity. }
      rewrite C. reflexivity.
    + destruct (o_fun o); discriminate.
Qed.

Lemma ends_op {A} (F : interp -> M A) s a s' :
  steady F -> ends F s a s' <-> exists n, F (run (S n)) s = Ok a s'.
Proof.
  intros St. split; [|intros [n E]; exists (S n); exact E].
  intros [n E]. exists n. eapply more_ends; [exact St| |exact E]. lia.
Qed.

Lemma steady_op o l : steady (fun R => i_op R o l).
Proof. intros R R' H. apply (re_op _ _ _ H). Qed.

Lemma clear_tuned o k a : o_assign o = false -> clear_assign (op_set_assign o k a) = tuned o k a.
Proof. intros E. unfold tuned. rewrite E. reflexivity. Qed.

(** [x o: e] evaluates [x o e] and binds [x] to the result. *)
Lemma evals_assigning o k a x es s r s' :
  ordinary s x -> any_operator o (S (length es)) ->
  evals s (assigning o k a x es) r s' <->
  r = lv x /\ exists v s1, gives s (TApp (tuned o k a) (name x :: es)) v s1 /\ rebound x v s1 s'.
Proof.
  intros O An. destruct (first_any _ _ An) as [Na Fi].
  assert (Fi' : first_operand (tuned o k a) (S (length es)) = true) by exact Fi.
  assert (Na' : o_assign (tuned o k a) = false) by exact Na.
  assert (U : forall y s1, evals s (TApp (tuned o k a) (name x :: es)) y s1 <->
                           exists n, i_op (run n) (tuned o k a) (AVal (lv x) :: map ATree es) s = Ok y s1).
  { intros y s1. rewrite evals_app. split; intros [n E].
    - assert (E1 : eval_op (run (S n)) (tuned o k a) (map ATree (name x :: es)) s = Ok y s1).
      { assert (E2 : i_eval (run (S (S n))) (TApp (tuned o k a) (name x :: es)) s = Ok y s1)
          by (rewrite eval_app_eq; exact E).
        apply (more_ends _ (S (S n)) (S (S (S n))) _ _ _ (steady_eval _) ltac:(lia)) in E2.
        rewrite eval_app_eq in E2. exact E2. }
      rewrite operand_lval in E1 by assumption. exists (S (S n)). exact E1.
    - assert (E1 : i_op (run (S (S n))) (tuned o k a) (AVal (lv x) :: map ATree es) s = Ok y s1)
        by (exact (more_ends _ n (S (S n)) _ _ _ (steady_op _ _) ltac:(lia) E)).
      exists (S n). rewrite operand_lval by assumption. exact E1. }
  unfold assigning. rewrite evals_app. cbn [map].
  assert (W : forall n, eval_op (run n) (op_set_assign o k a) (ATree (name x) :: map ATree es) s
    = (z <- i_eval (run n) (name x);; y <- i_op (run n) (tuned o k a) (AVal z :: map ATree es);; ASSIGN z y) s).
  { intros n. rewrite <- (clear_tuned o k a Na). reflexivity. }
  split.
  - intros [n E]. rewrite W in E. bind_inv E.
    assert (Ez : evals s (name x) a0 s0) by (eexists; eassumption).
    apply evals_name in Ez; [|exact O]. destruct Ez as [-> ->].
    bind_inv E. unfold ASSIGN in E. bind_inv E. bind_inv E. apply ret_ok in E. destruct E as [-> ->].
    split; [reflexivity|].
    assert (G : gives s (TApp (tuned o k a) (name x :: es)) a1 s1).
    { apply gives_evals. exists a0, s0. split; [apply U; eauto|assumption]. }
    exists a1, s1. split; [exact G|]. destruct a2.
    apply assign_name_ok; [|assumption]. eapply io_ordinary; [eapply gives_io; exact G|exact O].
  - intros (-> & v & s1 & G & Rb). pose proof G as G'.
    apply gives_evals in G. destruct G as (y & s2 & Ey & E2). apply U in Ey. destruct Ey as [n En].
    exists (S n). rewrite W. rewrite (bind_step _ _ _ _ _ (eval_name n s x O)).
    apply (more_ends _ n (S n) _ _ _ (steady_op _ _) ltac:(lia)) in En.
    rewrite (bind_step _ _ _ _ _ En). unfold ASSIGN. rewrite (bind_step _ _ _ _ _ E2).
    rewrite (bind_step _ _ _ tt s'); [reflexivity|].
    apply assign_name_ok; [|exact Rb]. eapply io_ordinary; [eapply gives_io; exact G'|exact O].
Qed.

Theorem assigning_same o k a x es s v s' :
  ordinary s x -> any_operator o (S (length es)) ->
  gives s (assigning o k a x es) v s' <-> gives s (spelled_out o k a x es) v s'.
Proof.
  intros O An. rewrite !gives_evals.
  assert (E : forall r s1, evals s (assigning o k a x es) r s1 <-> evals s (spelled_out o k a x es) r s1).
  { intros r s1. unfold spelled_out. rewrite evals_assigning, evals_assign by assumption. reflexivity. }
  split; intros (r & s1 & H1 & H2); exists r, s1; split; try exact H2; apply E; exact H1.
Qed.

(** ** On values *)
Lemma apply_tuned fmt o k a : forall f args, forallb plain args = true ->
  apply_fuel fmt (tuned o k a) f args = apply_fuel fmt o f args.
Proof.
  assert (B : forall args, forallb plain args = true -> existsb is_block args = false).
  { induction args as [|b args IH]; intros P; [reflexivity|]. cbn in *.
    apply andb_prop in P. destruct P as [Pa P]. rewrite (MetaProof.plain_block _ Pa), IH by exact P.
    reflexivity. }
  induction f as [|f IH]; intros args P; cbn [apply_fuel]; cbn [tuned o_flags];
    rewrite (B _ P), andb_false_r.
  - destruct args as [|x [|y [|c args]]]; reflexivity.
  - destruct args as [|x [|y [|c args]]]; try reflexivity.
    + cbn in P. rewrite andb_true_r in P.
      destruct (expands (o_flags o) x); [|reflexivity].
      apply MetaProof.plain_each; [exact P|]. intros z Pz. apply IH. cbn. rewrite Pz. reflexivity.
    + cbn in P. rewrite andb_true_r in P. apply andb_prop in P. destruct P as [Pa Pb].
      destruct (expands (o_flags o) x), (expands (o_flags o) y); cbn [orb andb]; try reflexivity.
      * destruct (infinite x && infinite y); [reflexivity|]. f_equal.
        apply ItemProof.mapM_ext_in. intros [z w] I. apply IH. cbn [fst snd].
        unfold zip_args in I.
        pose proof (in_combine_l _ _ _ _ I) as H1. pose proof (in_combine_r _ _ _ _ I) as H2.
        apply (MetaProof.plain_zip _ _ Pa) in H1. apply (MetaProof.plain_zip _ _ Pb) in H2.
        cbn. rewrite H1, H2. reflexivity.
      * apply MetaProof.plain_each; [exact Pa|]. intros z Pz. apply IH. cbn. rewrite Pz, Pb. reflexivity.
      * apply MetaProof.plain_each; [exact Pb|]. intros z Pz. apply IH. cbn. rewrite Pz, Pa. reflexivity.
Qed.
Lemma value_op_tuned o k a n : value_op o n -> value_op (tuned o k a) n.
Proof. intros [A M F S R V]. constructor; assumption. Qed.

Lemma tuned_gives text o k a es s qs r :
  op_by_arity (length es) (s_ text) = Some o -> value_op o (length es) ->
  Forall2 (means s) es qs -> forallb plain qs = true ->
  snd (run_op (st_fmt s) text qs) = Val r ->
  exists v s1, gives s (TApp (tuned o k a) es) v s1 /\ den (st_heap s1) v r /\ adv s s1.
Proof.
  intros Fo Vo Ms Pl E.
  assert (Rs : reads_all s es qs).
  { unfold reads_all. clear -Ms. induction Ms as [|e q es qs M F IH]; constructor; [|exact IH].
    apply means_reads. exact M. }
  destruct (reads_operands s es qs Rs s (adv_refl _)) as (vs & s1 & Os & A1 & Ds).
  pose proof (operands_length _ _ _ _ Os) as Len. pose proof (dens_length _ _ _ Ds) as Len2.
  assert (V' : value_op (tuned o k a) (length vs)) by (apply value_op_tuned; rewrite Len; exact Vo).
  unfold run_op in E. rewrite <- Len2, Len, Fo in E.
  assert (E' : snd (apply_op (st_fmt s1) (tuned o k a) qs) = Val r).
  { rewrite (adv_fmt _ _ A1). unfold apply_op in *. rewrite apply_tuned by exact Pl. exact E. }
  destruct (MutProof.op_values (tuned o k a) vs qs s1 r V' Ds E') as (n & u & s2 & E2 & A2 & D2).
  exists u, s2. split; [|split; [exact D2|eapply adv_trans; eassumption]].
  destruct (operands_fuel _ _ _ _ Os) as [m K].
  apply gives_evals. exists (XR u), s2. split; [|reflexivity]. apply evals_app.
  exists (max n m). rewrite (eval_op_operands _ _ _ _ _ _ V' (K (max n m) ltac:(lia))).
  exact (more_ends _ n (S (max n m)) _ _ _ (steady_op _ _) ltac:(lia) E2).
Qed.

Theorem assigning_value text o k a x es s p qs r :
  op_by_arity (S (length es)) (s_ text) = Some o -> value_op o (S (length es)) ->
  ordinary s x -> st_scopes s <> [] -> var s x p -> Forall2 (means s) es qs ->
  forallb plain (p :: qs) = true -> snd (run_op (st_fmt s) text (p :: qs)) = Val r ->
  exists w s', gives s (assigning o k a x es) w s' /\ den (st_heap s') w r /\ var s' x r /\
    changes_only x s s' /\ st_scopes s' <> [].
Proof.
  intros Fo Vo O NS V Ms Pl E.
  assert (Ms' : Forall2 (means s) (name x :: es) (p :: qs)).
  { constructor; [apply means_name; assumption|exact Ms]. }
  destruct (tuned_gives text o k a (name x :: es) s (p :: qs) r Fo Vo Ms' Pl E) as (v & s1 & G & D & A).
  assert (O1 : ordinary s1 x) by exact (adv_ordinary _ _ _ A O).
  assert (X : exists s2, rebound x v s1 s2).
  { destruct (local_name x) eqn:L.
    - destruct (st_scopes s1) as [|sc rest] eqn:Es.
      { rewrite (adv_scopes _ _ A) in Es. congruence. }
      eexists. eapply rebound_local; [apply local_spec; [apply O|exact L]|exact Es].
    - eexists. apply rebound_global. intros H. apply local_spec in H; [congruence|apply O]. }
  destruct X as [s2 Rb].
  apply (MutProof.changed_name s (assigning o k a x es) x s2 r s).
  - apply evals_assigning; [exact O|econstructor; exact Fo|]. split; [reflexivity|]. exists v, s1. auto.
  - eapply rebound_ordinary; eassumption.
  - eapply MutProof.chg_trans; [apply MutProof.adv_chg; exact A|eapply MutProof.rebound_chg; exact Rb].
  - eapply rebound_var; eassumption.
  - exact NS.
Qed.

(** ** Mapped operators *)
Lemma clear_set_map text o : op_by_arity 1 (s_ text) = Some o -> value_op o 1 ->
  clear_map (op_set_map o) = o.
Proof. intros _ [A M F S R V]. destruct o. cbn in *. subst. reflexivity. Qed.

Lemma steady_each o vs :
  steady (fun R => mmap (fun x => r <- i_op R o [AVal (XR x)];; to_r r) vs).
Proof.
  induction vs as [|x vs IH]; [exact (steady_const (mret []))|]. cbn [mmap].
  apply steady_bind; [apply steady_bind; [apply steady_op|intros; apply steady_const]|].
  intros a. apply steady_bind; [exact IH|]. intros b. apply steady_const.
Qed.
Lemma mapped_items o : value_op o 1 -> forall fmt text l rs,
  op_by_arity 1 (s_ text) = Some o ->
  Forall2 (fun q r => snd (run_op fmt text [q]) = Val r) l rs ->
  forall s vs, st_fmt s = fmt -> dens (st_heap s) vs l ->
  exists ws s', ends (fun R => mmap (fun x => r <- i_op R o [AVal (XR x)];; to_r r) vs) s ws s'
    /\ adv s s' /\ dens (st_heap s') ws rs.
Proof.
  intros Vo fmt text l rs Fo F. induction F as [|q r l rs E F IH]; intros s vs Fm D; inversion D; subst.
  - exists [], s. split; [exists O; reflexivity|]. split; [apply adv_refl|constructor].
  - unfold run_op in E. cbn [length] in E. rewrite Fo in E.
    assert (D1 : dens (st_heap s) [v] [q]) by (repeat constructor; assumption).
    destruct (MutProof.op_values o [v] [q] s r Vo D1 E) as (n & u & s1 & E1 & A1 & Du).
    destruct (IH s1 vs0 (adv_fmt _ _ A1) (adv_dens _ _ _ _ A1 H3)) as (ws & s2 & [m E2] & A2 & D2).
    exists (u :: ws), s2. split; [|split; [eapply adv_trans; eassumption|]].
    + exists (max n m). cbn [mmap].
      pose proof (more_ends _ n (max n m) _ _ _ (steady_op _ _) ltac:(lia) E1) as E1'.
      unfold mbind at 1. rewrite (bind_step _ _ _ _ _ E1'). cbn [to_r].
      pose proof (steady_each o vs0) as St.
      pose proof (more_ends _ m (max n m) _ _ _ St ltac:(lia) E2) as E2'.
      cbv beta in E2'. unfold mret. rewrite (bind_step _ _ _ _ _ E2'). reflexivity.
    + constructor; [exact (adv_den _ _ _ _ A2 Du)|exact D2].
Qed.

Theorem mapped_value text o s e v s1 p l rs :
  op_by_arity 1 (s_ text) = Some o -> value_op o 1 ->
  gives s e v s1 -> den (st_heap s1) v p -> elems p l ->
  Forall2 (fun q r => snd (run_op (st_fmt s1) text [q]) = Val r) l rs ->
  exists w s', gives s (mapped o e) w s' /\ den (st_heap s') w (PList rs) /\ only_adds s1 s'.
Proof.
  intros Fo Vo [k G] D El F.
  destruct (iter_visits s1 v p l D El) as (vs & s2 & E2 & A2 & D2 & _).
  destruct (mapped_items o Vo (st_fmt s1) text l rs Fo F s2 vs (adv_fmt _ _ A2) D2)
    as (ws & s3 & [m E3] & A3 & D3).
  destruct (yields_new_list ws rs s3 D3) as (w & s4 & E4 & A4 & D4).
  exists w, s4. split; [|split; [exact D4|]].
  - apply gives_evals. exists (XR w), s4. split; [|reflexivity]. unfold mapped. apply evals_app.
    exists (max k m). cbn [map].
    pose proof (more_ends _ k (max k m) _ _ _ (steady_rval e) ltac:(lia) G) as G'. cbv beta in G'.
    pose proof (steady_each o vs) as St.
    pose proof (more_ends _ m (max k m) _ _ _ St ltac:(lia) E3) as E3'. cbv beta in E3'.
    assert (U : eval_op (run (max k m)) (op_set_map o) [ATree e] s = MAPMETA (run (max k m)) (op_set_map o) (ATree e) s).
    { unfold eval_op. change (o_assign (op_set_map o)) with (o_assign o). rewrite (vo_assign _ _ Vo). reflexivity. }
    rewrite U. unfold MAPMETA. change (rval_arg_h (run (max k m)) (ATree e)) with (rval_tree (run (max k m)) e).
    rewrite (bind_step _ _ _ _ _ G'). rewrite (clear_set_map _ _ Fo Vo).
    destruct El; inversion D; subst;
      rewrite (bind_step _ _ _ _ _ E2), (bind_step _ _ _ _ _ E3'), (bind_step _ _ _ _ _ E4); reflexivity.
  - apply adv_only_adds. eapply adv_trans; [exact A2|]. eapply adv_trans; eassumption.
Qed.
