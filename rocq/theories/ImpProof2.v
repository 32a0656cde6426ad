(** * What programs do: proofs *)

From Coq Require Import String List NArith ZArith Bool Arith Lia.
From Verif Require Import PyStr PyRe PyNum Tokens Scan OpFun OpTable Parse Unparse
                          PTypes Ops OpsSeq Apply Spec StrFacts PFacts RunOp
                          Heap Exec SpecHeap HeapProof ExecRel ExecInv EvalProof
                          SpecScan SpecRun SpecVars VarProof CtlProof PureProof LoopProof SpecMain SpecMap MapProof
                          SpecAlias FilterProof SpecMeta MetaProof SpecLam LamProof SpecRec RecProof
                          StandProof SpecFun FunProof FunProof2 SpecImp ImpProof.
From Verif Require MainProof AliasStart.
Import ListNotations.
Local Open Scope string_scope.
Local Open Scope list_scope.

(** ** The global variables of a new interpreter *)
Definition wipe_with (table : list (str * pval)) : M unit :=
  consts <- mmap (fun '(x, p) => v <- fresh p;; mret (x, v)) table;;
  args <- get_args;;
  all_args <- copies args;;
  g <- new_list all_args;;
  main <- get_main;;
  let named := combine (map (fun c => [c_backslash; c]) (s_ "abcde")) args in
  reset_vars (consts ++ [(s_ "\g", g)] ++ named
              ++ [(s_ "\f", match main with Some f => f | None => HNil end)]).
Lemma wipe_eq : wipe_globals = wipe_with global_table.
Proof. unfold wipe_with. unfold wipe_globals. reflexivity. Qed.
Definition in_table (table : list (str * pval)) (x : str) : option pval :=
  option_map snd (find (fun e => str_eqb x (fst e)) table).
Lemma fresh_table table : forall s,
  exists e s', mmap (fun '(x, p) => v <- fresh p;; mret (x, v)) table s = Ok e s' /\ adv s s' /\
    forall x p more, in_table table x = Some p ->
      exists v, lookup (e ++ more) x = Some v /\ den (st_heap s') v p.
Proof.
  induction table as [|[y q] table IH]; intros s; cbn [mmap].
  - exists [], s. split; [reflexivity|]. split; [apply adv_refl|]. intros x p more E. discriminate.
  - destruct (yields_fresh q s) as (v & s1 & E1 & A1 & D1).
    destruct (IH s1) as (e & s2 & E2 & A2 & H2).
    exists ((y, v) :: e), s2. split; [|split; [eapply adv_trans; eassumption|]].
    + rewrite (bind_step _ _ s (y, v) s1); [|rewrite (bind_step _ _ _ _ _ E1); reflexivity].
      rewrite (bind_step _ _ _ _ _ E2). reflexivity.
    + intros x p more. unfold in_table. cbn [find fst List.app lookup].
      destruct (str_eqb x y).
      * intros E. injection E as <-. exists v. split; [reflexivity|]. eapply adv_den; eassumption.
      * intros E. apply H2. exact E.
Qed.
Lemma wiped table s ps :
  dens (st_heap s) (st_args s) ps ->
  exists e s1, wipe_with table s = Ok tt (set_vars e s1) /\ adv s s1 /\
    forall x p, in_table table x = Some p -> exists v, lookup e x = Some v /\ den (st_heap s1) v p.
Proof.
  intros D. unfold wipe_with. destruct (fresh_table table s) as (e & s1 & E1 & A1 & H1).
  destruct (yields_copies (st_args s) ps s1 (adv_dens _ _ _ _ A1 D)) as (vs & s2 & E2 & A2 & D2).
  destruct (new_list_ok vs s2 ps D2) as (g & t & E3 & D3 & _).
  eexists _, (grow t s2). split; [|split].
  - rewrite (bind_step _ _ _ _ _ E1). unfold mbind at 1, get_args.
    assert (Sa : st_args s1 = st_args s) by (destruct A1 as (? & ? & ->); reflexivity). rewrite Sa.
    rewrite (bind_step _ _ _ _ _ E2), (bind_step _ _ _ _ _ E3). unfold mbind, get_main, reset_vars.
    reflexivity.
  - eapply adv_trans; [exact A1|]. eapply adv_trans; [exact A2|apply adv_grow].
  - intros x p E. edestruct H1 as (v & L & Dv); [exact E|]. exists v. split; [exact L|].
    eapply adv_den; [|exact Dv]. eapply adv_trans; [exact A2|apply adv_grow].
Qed.

Lemma start_in_table :
  Forall (fun e => in_table global_table (s_ (fst e)) = Some (snd e)) start_table.
Proof.
  unfold start_table. repeat apply Forall_cons; try apply Forall_nil; cbn [fst snd]; vm_compute; reflexivity.
Qed.
Lemma start_known x p : start_values x = Some p -> plain_name x /\ in_table global_table x = Some p.
Proof.
  unfold start_values. intros E. destruct (find _ start_table) as [[y q]|] eqn:F; [|discriminate].
  injection E as ->. apply find_some in F. destruct F as [I F]. cbn [fst] in F. apply str_eqb_eq in F. subst x.
  pose proof AliasStart.start_names as Nms. rewrite Forall_forall in Nms. specialize (Nms _ I).
  cbn [fst snd] in Nms. destruct Nms as (Nm & Lc & Sp & _).
  pose proof start_in_table as T. rewrite Forall_forall in T. specialize (T _ I). cbn [fst snd] in T.
  split; [|exact T]. split; [exact Nm|].
  split; [intros Eq; rewrite Eq in Sp; discriminate|]. split; [intros Eq; rewrite Eq in Sp; discriminate|].
  split; [|rewrite <- (local_spec _ Nm); congruence].
  intros Eq. assert (X : Forall (fun e => str_eqb (s_ (fst e)) (s_ "PIP") = false) start_table)
    by (repeat constructor).
  rewrite Forall_forall in X. specialize (X _ I). cbn [fst] in X. rewrite Eq in X. discriminate.
Qed.

Definition all_globals : list (str * pval) := global_table.
Theorem program_runs text fmt wn input args F out w' p :
  program_of text F -> invokes (start_setting fmt) F (map PScal args) out w' p ->
  prints fmt wn input text args (out ++ shown_line fmt p).
Proof.
  intros (ts & b & sts & rest & Sn & Pr & Ne & Dm) Iv.
  destruct statements_run as (_ & _ & _ & _ & _ & _ & SR & _).
  destruct (SR _ _ _ _ _ _ Iv) as [_ Iv']. clear SR.
  unfold prints, run_text. rewrite Sn, Pr. set (s0 := blank_state fmt wn input None).
  rewrite wipe_eq. fold all_globals.
  destruct (wiped all_globals s0 [] ltac:(constructor)) as (e1 & s1 & E1 & A1 & _).
  set (s1' := set_vars e1 s1) in *.
  destruct (yields_fresh_all (map PScal args) s1') as (vs & s2 & E2 & A2 & D2).
  set (s3 := set_program vs (Some (mk_block sts)) s2).
  destruct (wiped all_globals s3 (map PScal args) D2) as (e4 & s4 & E4 & A4 & H4).
  set (s4' := set_vars e4 s4) in *.
  assert (R : st_fmt s4' = fmt /\ st_tao s4' = None /\ st_in s4' = w_in input /\ st_out s4' = []
              /\ exists t, st_heap s4' = st_heap s0 ++ t).
  { destruct A4 as (t4 & d4 & E4'), A2 as (t2 & d2 & E2'), A1 as (t1 & d1 & E1').
    unfold s4'. rewrite E4'. unfold s3. rewrite E2'. unfold s1'. rewrite E1'. cbn.
    repeat split; auto. eexists. rewrite <- !app_assoc. cbn. reflexivity. }
  destruct R as (Rf & Rt & Ri & Ro & t & Rh).
  assert (M : models s4' (start_setting fmt)).
  { split; [exact Rf|]. split.
    - cbn [start_setting w_var]. intros x q Eq. destruct (start_known x q Eq) as [(Nm & Nq & Nr & Np & Nl) T].
      split; [|split; [exact Nl|]].
      + split; [exact Nm|]. split; [exact Nq|]. split; [exact Nr|]. intros; contradiction.
      + destruct (H4 x q T) as (v & Lv & Dv). exists (Some v). split; [|exact Dv].
        change (Some v = lookup (st_vars s4') x) in Lv || idtac.
        rewrite <- Lv. exact (binding_global s4' x Nl).
    - intros _. unfold has_one. rewrite Rh. reflexivity. }
  assert (Df : den (st_heap s4') (mk_block sts) F) by (exact (den_app [] (st_heap s4') _ _ Dm)).
  assert (Dv : dens (st_heap s4') vs (map PScal args)).
  { exact (adv_dens _ _ _ _ A4 D2). }
  destruct (Iv' s4' (mk_block sts) vs M Df Dv) as (v & s5 & [n C] & D5 & Go & Sc & M5).
  assert (Pt : exists s6, PRINT v s5 = Ok tt s6 /\ st_out s6 = out ++ shown_line fmt p /\ st_in s6 = w_in input).
  { assert (O5 : st_out s5 = out /\ st_in s5 = w_in input /\ st_fmt s5 = fmt).
    { destruct Go as ((G1 & _ & G2 & _) & G3 & _). rewrite G3, G2, G1, Ro, Rf, Ri. auto. }
    destruct O5 as (O5 & I5 & F5).
    assert (N : p = PNil \/ p <> PNil) by (destruct p; (left; reflexivity) || (right; discriminate)).
    destruct N as [->|N].
    - assert (Ev : v = HNil) by (inversion D5; reflexivity). rewrite Ev. exists s5. split; [reflexivity|]. split; [cbn; rewrite app_nil_r; exact O5|exact I5].
    - destruct (MainProof.output_ok v p s5 D5 N) as [_ Ep]. eexists. split; [exact Ep|]. cbn.
      rewrite F5, O5. split; [|exact I5]. destruct p; try reflexivity; congruence. }
  destruct Pt as (s6 & Ep & Eo & Ei). exists n, s6. split; [|auto]. intros m Hm.
  pose proof (more_ends _ n m _ _ _ (steady_call _ _) Hm C) as C'.
  rewrite (bind_step _ _ _ _ _ E1), (bind_step _ _ _ _ _ E2).
  unfold exec_program. rewrite wipe_eq. fold all_globals. destruct sts as [|t0 sts]; [congruence|].
  cbv zeta. rewrite (bind_step _ _ _ tt s3) by reflexivity.
  rewrite (bind_step _ _ _ _ _ E4), (bind_step _ _ _ _ _ C'). exact Ep.
Qed.

Theorem invokes_calls s f F vs args out w' p :
  den (st_heap s) f F -> dens (st_heap s) vs args -> invokes (setting_of s) F args out w' p ->
  exists v s', calls s f vs v s' /\ den (st_heap s') v p /\ st_out s' = st_out s ++ out /\ st_in s' = st_in s
    /\ st_scopes s' = st_scopes s /\ models s' w'.
Proof.
  intros Df Dv Iv. destruct statements_run as (_ & _ & _ & _ & _ & _ & SR & _).
  destruct (SR _ _ _ _ _ _ Iv) as [_ X].
  destruct (X s f vs (models_setting s) Df Dv) as (v & s' & C & D & ((_ & _ & Gi & _) & Go & _) & Sc & M).
  exists v, s'. auto 8.
Qed.
Theorem invokes_unique s F args out w' p out2 w2 p2 :
  invokes (setting_of s) F args out w' p -> invokes (setting_of s) F args out2 w2 p2 -> out = out2 /\ p = p2.
Proof.
  intros C1 C2. destruct statements_run as (_ & _ & _ & _ & _ & _ & SR & _).
  destruct (SR _ _ _ _ _ _ C1) as [(sts & r & ->) X]. destruct (SR _ _ _ _ _ _ C2) as [_ Y].
  destruct (yields_fresh (PBlock sts r) s) as (f & s1 & _ & A1 & Df).
  destruct (yields_fresh_all args s1) as (vs & s2 & _ & A2 & Dv).
  apply adv_only_adds in A1. apply adv_only_adds in A2.
  assert (Si : models s2 (setting_of s)) by (eapply models_adds; [apply models_setting|]; eapply adds_trans; eassumption).
  pose proof (adds_den _ _ _ _ A2 Df) as Df2.
  destruct (X s2 f vs Si Df2 Dv) as (v & s3 & Cv & D1 & (_ & O1 & _) & _).
  destruct (Y s2 f vs Si Df2 Dv) as (w & s4 & Cw & D2 & (_ & O2 & _) & _).
  destruct (ends_fun _ _ _ _ _ _ (steady_call f vs) Cv Cw) as [-> ->]. split.
  - rewrite O1 in O2. apply app_inv_head in O2. exact O2.
  - eapply den_fun; eassumption.
Qed.
