(** * Arguments evaluated by -x: proofs *)

From Coq Require Import String List NArith ZArith Bool Arith Lia.
From Verif Require Import PyStr PyRe PyNum Tokens Scan OpFun OpTable Parse Unparse
                          PTypes Ops OpsSeq Apply Spec StrFacts PFacts RunOp
                          Heap Exec SpecHeap HeapProof ExecRel ExecInv EvalProof
                          SpecScan SpecRun SpecVars VarProof CtlProof PureProof LoopProof SpecMain SpecMap MapProof
                          SpecAlias FilterProof SpecMeta MetaProof SpecLam LamProof SpecRec RecProof
                          StandProof SpecFun FunProof FunProof2 SpecImp ImpProof ImpProof2 Main.
From Verif Require NumFacts LexProof MainProof SpecRepr ReprProof.
Import ListNotations.
Local Open Scope string_scope.
Local Open Scope list_scope.

(** The expressions that spell values have values, not places. *)
Definition is_read (t : tree hval) (p : pval) : Prop :=
  forall s, exists v s', evals s t (XR v) s' /\ adv s s' /\ den (st_heap s') v p.
Definition are_read (es : list (tree hval)) (ps : list pval) : Prop :=
  forall s, exists vs s' n,
    (forall m, (n <= m)%nat -> mmap (eval_arg (run m)) (map ATree es) s = Ok (map XR vs) s')
    /\ adv s s' /\ dens (st_heap s') vs ps.

Lemma literal_read k p : is_literal (t_kind k) = true -> t_kind k <> KName -> of_token k = Val p -> is_read (TTok k) p.
Proof.
  intros E1 E2 E3 s. destruct (yields_fresh p s) as (v & s1 & E & A1 & D). exists v, s1.
  split; [|split; [exact A1|exact D]].
  exists 1%nat. change (eval_tree (run 0) (TTok k) s = Ok (XR v) s1). cbn [eval_tree].
  assert (Y : (if is_literal (t_kind k) then p0 <- of_res (of_token k);; v0 <- fresh p0;; xret v0
               else fail EFatal) s = Ok (XR v) s1).
  { rewrite E1, E3. cbn [of_res]. unfold mbind, mret. rewrite E. reflexivity. }
  destruct (t_kind k); try exact Y. congruence.
Qed.
Lemma value_read text es ps p : value_operator text (length es) ->
  (forall s, Forall2 (means s) es ps) -> (forall fmt, snd (run_op fmt text ps) = Val p) ->
  is_read (SpecVars.app text es) p.
Proof.
  intros (o & Fo & Vo) F E s.
  assert (Rs : reads_all s es ps).
  { unfold reads_all. specialize (F s). clear -F. induction F as [|e q es ps M F IH]; constructor;
      [apply means_reads; exact M|exact IH]. }
  destruct (reads_operands s es ps Rs s (adv_refl _)) as (vs & s1 & Os & A1 & Ds).
  pose proof (value_result text es s vs s1 ps o Fo Vo Os Ds) as H.
  rewrite E in H. destruct H as (v & s2 & G & D & A2).
  exists v, s2. split; [exact G|]. split; [eapply adv_trans; eassumption|exact D].
Qed.
Lemma rval_values vs s : mmap rval_h (map XR vs) s = Ok vs s.
Proof.
  induction vs as [|v vs IH]; [reflexivity|]. cbn [map mmap rval_h]. unfold mbind, mret. rewrite IH. reflexivity.
Qed.

Lemma spelled_read :
  (forall v ts t, ReprProof.spelled v ts t -> is_read t v)
  /\ (forall l ts es, ReprProof.spelled_all l ts es -> are_read es l).
Proof.
  apply (ReprProof.spelled_both (fun v ts t _ => is_read t v) (fun l ts es _ => are_read es l)).
  - intros k x K T E v R Ev. apply literal_read; [| |exact Ev].
    + destruct K as [->|[->| ->]]; reflexivity.
    + destruct K as [->|[->| ->]]; discriminate.
  - intros u U E. apply (value_read "-" [TTok (Tok KNumber u)] [PScal u]).
    + eexists. split; [vm_compute; reflexivity|]. constructor; vm_compute; reflexivity.
    + intros s. constructor; [|constructor]. apply means_literal; [reflexivity|discriminate|reflexivity].
    + exact E.
  - apply literal_read; [reflexivity|discriminate|reflexivity].
  - intros lo hi l r tl tr el er B1 B2 R1 R2 S1 M1 S2 M2.
    assert (Rd : is_read (SpecVars.app "," [el; er]) (PRange lo hi)).
    { apply (value_read "," [el; er] [l; r]).
      - eexists. split; [vm_compute; reflexivity|]. constructor; vm_compute; reflexivity.
      - intros s. constructor; [exact (proj1 (ReprProof.spelled_meanings s) _ _ _ S1)|].
        constructor; [exact (proj1 (ReprProof.spelled_meanings s) _ _ _ S2)|constructor].
      - intros fmt. clear -B1 B2.
        destruct l as [x| | | | |]; try discriminate B1; destruct r as [y| | | | |]; try discriminate B2;
        RunOp.run_plain; unfold op_RANGE; cbn [OpsSeq.bound_of] in *;
        congruence || (injection B1 as <-; injection B2 as <-; reflexivity). }
    intros s. destruct (Rd s) as (v & s1 & [n E] & A1 & D). exists v, s1. split; [|auto].
    apply evals_app. exists n. rewrite eval_op_vals by reflexivity. cbn [map mmap eval_arg].
    unfold mbind. rewrite E. unfold mret. reflexivity.
  - intros l ts es Sl M s. destruct (M s) as (vs & s1 & n & E & A1 & Ds).
    destruct (new_list_ok vs s1 l Ds) as (w & t & E3 & D3 & _).
    exists w, (grow t s1). split; [|split; [eapply adv_trans; [exact A1|apply adv_grow]|exact D3]].
    apply evals_app. exists n. rewrite eval_op_vals by reflexivity.
    rewrite (bind_step _ _ _ _ _ (E n ltac:(lia))). apply (proj2 (catch_ok _ _ _ _)).
    change ((xs0 <- mmap (eval_arg (run n)) (map AVal (map XR vs));; LIST xs0) s1 = Ok (XR w) (grow t s1)).
    rewrite (bind_step _ _ _ _ _ (mmap_eval_vals _ _ _)).
    assert (G : (ws <- mmap rval_h (map XR vs);; v <- new_list ws;; xret v) s1 = Ok (XR w) (grow t s1)).
    { rewrite (bind_step _ _ _ _ _ (rval_values vs s1)), (bind_step _ _ _ _ _ E3). reflexivity. }
    destruct vs as [|v0 vs]; exact G.
  - intros s. exists [], s, O. split; [reflexivity|]. split; [apply adv_refl|constructor].
  - intros v ts e Sp M s. destruct (M s) as (w & s1 & [k E] & A1 & D).
    exists [w], s1, k. split; [|split; [exact A1|constructor; [exact D|constructor]]].
    intros m L. cbn [map mmap eval_arg].
    rewrite (bind_step _ _ _ _ _ (more_eval k m _ _ _ L E ltac:(discriminate))). reflexivity.
  - intros v ts e l tl es Sp M Sl Ml N0 s. destruct (M s) as (w & s1 & [k E] & A1 & D).
    destruct (Ml s1) as (vs & s2 & n & E2 & A2 & Ds).
    exists (w :: vs), s2, (max k n). split; [|split; [eapply adv_trans; eassumption|]].
    + intros m L. cbn [map mmap eval_arg].
      rewrite (bind_step _ _ _ _ _ (more_eval k m _ _ _ ltac:(lia) E ltac:(discriminate))).
      rewrite (bind_step _ _ _ _ _ (E2 m ltac:(lia))). reflexivity.
    + constructor; [eapply adv_den; eassumption|exact Ds].
Qed.

(** One argument, and all of them. *)
Lemma arg_read p : SpecRepr.readable p -> forall s, exists v s' n,
  (forall m, (n <= m)%nat -> exec_arg m (p_repr p) s = Ok v s') /\ adv s s' /\ den (st_heap s') v p.
Proof.
  intros R s. destruct (ReprProof.readable_spelled p R) as (ts & t & Sp).
  destruct (proj1 spelled_read p ts t Sp s) as (v & s' & [n E] & A & D).
  exists v, s', n. split; [|auto]. intros m L. unfold exec_arg.
  pose proof (ReprProof.spelled_scan p ts t [] Sp ltac:(constructor)) as Sc. rewrite app_nil_r in Sc.
  rewrite Sc, (ReprProof.spelled_program p ts t Sp).
  rewrite (bind_step _ _ _ _ _ (more_eval n m _ _ _ L E ltac:(discriminate))). reflexivity.
Qed.
Lemma args_read ps : Forall SpecRepr.readable ps -> forall s, exists vs s' n,
  (forall m, (n <= m)%nat -> mmap (exec_arg m) (map p_repr ps) s = Ok vs s') /\ adv s s' /\ dens (st_heap s') vs ps.
Proof.
  induction 1 as [|p ps R F IH]; intros s.
  - exists [], s, O. split; [reflexivity|]. split; [apply adv_refl|constructor].
  - destruct (arg_read p R s) as (v & s1 & k & E & A1 & D).
    destruct (IH s1) as (vs & s2 & n & E2 & A2 & Ds).
    exists (v :: vs), s2, (max k n). split; [|split; [eapply adv_trans; eassumption|]].
    + intros m L. cbn [map mmap]. rewrite (bind_step _ _ _ _ _ (E m ltac:(lia))).
      rewrite (bind_step _ _ _ _ _ (E2 m ltac:(lia))). reflexivity.
    + constructor; [eapply adv_den; eassumption|exact Ds].
Qed.

(** A program with -x: as [ImpProof2.program_runs], with other arguments. *)
Theorem program_runs_x text o input ps F out w' p :
  op_exec_args o = true -> op_readlines o = false -> op_args o = map p_repr ps -> Forall SpecRepr.readable ps ->
  program_of text F -> invokes (start_setting (list_format o)) F ps out w' p ->
  exists n s', (forall m, (n <= m)%nat -> pip_main m o input (s_ text) = Ok tt s')
    /\ st_out s' = out ++ shown_line (list_format o) p /\ st_in s' = w_in input.
Proof.
  intros Ox Or Oa Rd (ts & b & sts & rest & Sn & Pr & Ne & Dm) Iv.
  destruct statements_run as (_ & _ & _ & _ & _ & _ & SR & _).
  destruct (SR _ _ _ _ _ _ Iv) as [_ Iv']. clear SR.
  unfold pip_main. rewrite Sn, Pr, Ox, Or, Oa. set (fmt := list_format o) in *.
  set (s0 := blank_state fmt (warnings_on o) input None).
  rewrite wipe_eq. fold all_globals.
  destruct (wiped all_globals s0 [] ltac:(constructor)) as (e1 & s1 & E1 & A1 & _).
  set (s1' := set_vars e1 s1) in *.
  destruct (args_read ps Rd s1') as (vs & s2 & n2 & E2 & A2 & D2).
  set (s3 := set_program vs (Some (mk_block sts)) s2).
  destruct (wiped all_globals s3 ps D2) as (e4 & s4 & E4 & A4 & H4).
  set (s4' := set_vars e4 s4) in *.
  assert (R : st_fmt s4' = fmt /\ st_tao s4' = None /\ st_in s4' = w_in input /\ st_out s4' = []
              /\ exists t, st_heap s4' = st_heap s0 ++ t).
  { destruct A4 as (t4 & d4 & E4'), A2 as (t2 & d2 & E2'), A1 as (t1 & d1 & E1').
    unfold s4'. rewrite E4'. unfold s3. rewrite E2'. unfold s1'. rewrite E1'. cbn.
    repeat split; auto. eexists. rewrite <- !app_assoc. cbn. reflexivity. }
  destruct R as (Rf & Rt & Ri & Ro & t & Rh).
  assert (M : models s4' (start_setting fmt)).
  { split; [exact Rf|]. split.
    - cbn [start_setting w_var]. intros x q Eq. destruct (start_known x q Eq) as [(Nm & Nq & Nr & Np & Nl) T].
      split; [|split; [exact Nl|]].
      + split; [exact Nm|]. split; [exact Nq|]. split; [exact Nr|]. intros; contradiction.
      + destruct (H4 x q T) as (v & Lv & Dv). exists (Some v). split; [|exact Dv].
        rewrite <- Lv. exact (binding_global s4' x Nl).
    - intros _. unfold has_one. rewrite Rh. reflexivity. }
  assert (Df : den (st_heap s4') (mk_block sts) F) by (exact (den_app [] (st_heap s4') _ _ Dm)).
  assert (Dv : dens (st_heap s4') vs ps).
  { exact (adv_dens _ _ _ _ A4 D2). }
  destruct (Iv' s4' (mk_block sts) vs M Df Dv) as (v & s5 & [n C] & D5 & Go & Sc & M5).
  assert (Pt : exists s6, PRINT v s5 = Ok tt s6 /\ st_out s6 = out ++ shown_line fmt p /\ st_in s6 = w_in input).
  { assert (O5 : st_out s5 = out /\ st_in s5 = w_in input /\ st_fmt s5 = fmt).
    { destruct Go as ((G1 & _ & G2 & _) & G3 & _). rewrite G3, G2, G1, Ro, Rf, Ri. auto. }
    destruct O5 as (O5 & I5 & F5).
    assert (N : p = PNil \/ p <> PNil) by (destruct p; (left; reflexivity) || (right; discriminate)).
    destruct N as [->|N].
    - assert (Ev : v = HNil) by (inversion D5; reflexivity). rewrite Ev. exists s5. split; [reflexivity|]. split; [cbn; rewrite app_nil_r; exact O5|exact I5].
    - destruct (MainProof.output_ok v p s5 D5 N) as [_ Ep]. eexists. split; [exact Ep|]. cbn.
      rewrite F5, O5. split; [|exact I5]. destruct p; try reflexivity; congruence. }
  destruct Pt as (s6 & Ep & Eo & Ei). exists (max n n2), s6. split; [|auto]. intros m Hm.
  pose proof (more_ends _ n m _ _ _ (steady_call _ _) ltac:(lia) C) as C'.
  rewrite (bind_step _ _ _ _ _ E1). rewrite (bind_step _ _ _ (map p_repr ps) s1') by reflexivity.
  rewrite (bind_step _ _ _ _ _ (E2 m ltac:(lia))).
  unfold exec_program. rewrite wipe_eq. fold all_globals. destruct sts as [|t0 sts]; [congruence|].
  cbv zeta. rewrite (bind_step _ _ _ tt s3) by reflexivity.
  rewrite (bind_step _ _ _ _ _ E4), (bind_step _ _ _ _ _ C'). exact Ep.
Qed.

(** Integers as arguments, with and without -x. *)
Lemma integer_readable z : SpecRepr.readable (scal_Z z) /\ p_repr (scal_Z z) = str_of_Z z.
Proof.
  destruct (NumFacts.str_of_Z_shape z) as (c & r & Hd & _ & _ & E).
  assert (U : SpecRepr.unsigned (c :: r)) by (left; apply LexProof.digits_iff; split; [discriminate|exact Hd]).
  split.
  - apply SpecRepr.readable_scalar. destruct (Z.ltb_spec z 0) as [L|L]; [apply SpecRepr.text_integer; exact L|].
    apply SpecRepr.text_number. cbn [Datatypes.app] in E. rewrite E. exact U.
  - apply ReprProof.repr_numeric. rewrite E.
    destruct (z <? 0)%Z; [right; exists (c :: r); auto|left; exact U].
Qed.
Lemma main_text n o input text :
  op_exec_args o = false -> op_readlines o = false ->
  (exists ts b sts rest, scan text = ScanOk ts b /\ parse_program (V := hval) ts = POk sts rest) ->
  pip_main n o input text = run_text n (list_format o) (warnings_on o) input text (op_args o).
Proof.
  intros Ox Or (ts & b & sts & rest & Sn & Pr). unfold pip_main, run_text. rewrite Sn, Pr, Ox, Or. reflexivity.
Qed.
Theorem integers_x text o input zs F out w' p :
  op_readlines o = false -> op_args o = map str_of_Z zs ->
  program_of text F -> invokes (start_setting (list_format o)) F (map scal_Z zs) out w' p ->
  exists n s', (forall m, (n <= m)%nat -> pip_main m o input (s_ text) = Ok tt s')
    /\ st_out s' = out ++ shown_line (list_format o) p /\ st_in s' = w_in input.
Proof.
  intros Or Oa P Iv. destruct (op_exec_args o) eqn:Ox.
  - apply (program_runs_x text o input (map scal_Z zs) F out w' p); try assumption.
    + rewrite Oa, map_map. apply map_ext. intros z. symmetry. apply integer_readable.
    + apply Forall_forall. intros q I. apply in_map_iff in I. destruct I as (z & <- & _). apply integer_readable.
  - replace (map scal_Z zs) with (map PScal (map str_of_Z zs)) in Iv by (rewrite map_map; reflexivity).
    destruct (program_runs text (list_format o) (warnings_on o) input _ F out w' p P Iv) as (n & s' & E & R).
    exists n, s'. split; [|exact R]. intros m L. rewrite main_text; [rewrite Oa; exact (E m L)|exact Ox|exact Or|].
    destruct P as (ts & b & sts & rest & Sn & Pr & _). eauto 8.
Qed.
