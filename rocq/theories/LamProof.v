(** * Operators applied to functions: proofs *)

From Coq Require Import String List NArith ZArith Bool Arith Lia.
From Verif Require Import PyStr PyRe PyNum Tokens OpFun OpTable Unparse
                          PTypes Ops OpsSeq Apply Spec StrFacts PFacts RunOp
                          Heap Exec SpecHeap HeapProof ExecRel ExecInv EvalProof
                          SpecScan SpecRun SpecVars VarProof CtlProof PureProof LoopProof SpecMap MapProof
                          FilterProof SpecLam.
Import ListNotations.
Local Open Scope string_scope.
Local Open Scope list_scope.

Lemma returns_nested s args (P : tree pval -> pval -> Prop) :
  (forall i c, nth_error (s_ "abcde") i = Some c -> P (TTok (Tok KName [c])) (nth i args PNil)) ->
  P (TTok (Tok KName (s_ "g"))) (PList args) ->
  (forall x p, ordinary s x -> ~ is_local x -> var s x p -> P (TTok (Tok KName x)) p) ->
  (forall p, P (TVal p) p) ->
  (forall k p, is_literal (t_kind k) = true -> t_kind k <> KName -> of_token k = Val p ->
     P (TTok k) p) ->
  (forall text o es ps p, op_by_arity (length es) (s_ text) = Some o -> value_op o (length es) ->
     Forall2 P es ps -> snd (run_op (st_fmt s) text ps) = Val p -> P (TApp o es) p) ->
  (forall e p, P e p -> P (TApp op_paren [e]) p) ->
  (forall es ps, Forall2 P es ps -> P (TApp op_enlist es) (PList ps)) ->
  forall e p, returns s args e p -> P e p.
Proof.
  intros H1 H2 H3 H4 H5 H6 H7 H8. fix IH 3. intros e p M.
  assert (L : forall es ps, Forall2 (returns s args) es ps -> Forall2 P es ps).
  { fix IHl 3. intros es ps F. destruct F as [|e0 p0 es ps M0 F]; constructor;
      [exact (IH _ _ M0)|exact (IHl _ _ F)]. }
  destruct M as [i c E| |x p O Lo V|p|k p E1 E2 E3|text o es ps p F V Fr E|e p M|es ps Fr].
  - apply H1; assumption.
  - exact H2.
  - apply H3; assumption.
  - apply H4.
  - apply H5; assumption.
  - apply (H6 text o es ps p F V (L _ _ Fr) E).
  - apply H7. exact (IH _ _ M).
  - apply H8. exact (L _ _ Fr).
Qed.

Lemma dents_Forall2 h es rs : dents h es rs -> Forall2 (dent h) es rs.
Proof. induction es as [|e es IH] in rs |- *; intros D; inversion D; subst; constructor; auto. Qed.
Lemma Forall2_dents h es rs : Forall2 (dent h) es rs -> dents h es rs.
Proof. induction 1; constructor; auto. Qed.

Lemma means_all s1 (es : list (tree hval)) : forall rs ps,
  dents (st_heap s1) es rs ->
  Forall2 (fun r p => forall e, dent (st_heap s1) e r -> means s1 e p) rs ps ->
  Forall2 (means s1) es ps.
Proof.
  induction es as [|e es IH]; intros rs ps D F; inversion D; subst; inversion F; subst; constructor; eauto.
Qed.

Lemma dents_length h es : forall rs, dents h es rs -> length es = length rs.
Proof. induction es as [|e es IH]; intros rs D; inversion D; subst; cbn; auto. Qed.

(** In the scope of the call the expression has the value. *)
Lemma entered_fmt s f ps s1 : entered s f ps s1 -> st_fmt s1 = st_fmt s.
Proof. intros ((sc & A) & _). rewrite (adds_fmt _ _ A). reflexivity. Qed.
Lemma entered_heap s f ps s1 : entered s f ps s1 -> exists t, st_heap s1 = st_heap s ++ t.
Proof.
  intros ((sc & A) & _). unfold only_adds in A.
  destruct A as (_ & _ & _ & _ & _ & _ & _ & _ & _ & _ & _ & H & _). exact H.
Qed.
Lemma entered_global s0 s f ps s1 x p :
  only_adds s0 s -> entered s f ps s1 -> ordinary s0 x -> ~ is_local x -> var s0 x p ->
  ordinary s1 x /\ var s1 x p.
Proof.
  intros A En O Lo (o & B & Vo).
  assert (T : st_tao s1 = st_tao s0 /\ st_vars s1 = st_vars s0 /\ exists t, st_heap s1 = st_heap s0 ++ t).
  { destruct (entered_heap _ _ _ _ En) as [t Ht]. destruct En as ((sc & A1) & _).
    unfold only_adds in A, A1.
    destruct A as (V & _ & _ & _ & _ & _ & _ & _ & _ & Ta & _ & (t0 & Hh) & _).
    destruct A1 as (V1 & _ & _ & _ & _ & _ & _ & _ & _ & Ta1 & _).
    cbn in V1, Ta1. split; [congruence|]. split; [congruence|].
    exists (t0 ++ t). rewrite Ht, Hh. symmetry. apply app_assoc. }
  destruct T as (Ta & V & t & Ht). split.
  - destruct O as (O1 & O2 & O3 & O4). split; [exact O1|]. split; [exact O2|]. split; [exact O3|].
    rewrite Ta. exact O4.
  - exists o. split.
    + inversion B as [sc rest L| L E]; [contradiction|].
      rewrite <- V. apply binding_global. exact Lo.
    + destruct o as [v|]; [|exact Vo]. rewrite Ht. apply den_app. exact Vo.
Qed.

Lemma arg_ordinary s c : In c (s_ "abcdefg") -> ordinary s [c].
Proof.
  intros I. split; [|split; [|split]].
  - apply name_lower; cbn in I; repeat (destruct I as [<-|I]; [reflexivity || discriminate|]); destruct I.
  - intros E. injection E as ->. cbn in I. repeat (destruct I as [I|I]; [discriminate|]). destruct I.
  - intros E. injection E as ->. cbn in I. repeat (destruct I as [I|I]; [discriminate|]). destruct I.
  - intros E. discriminate.
Qed.

Lemma held_nth s x ps i : held s x (nth_error ps i) -> var s x (nth i ps PNil).
Proof.
  intros H. destruct (nth_error ps i) as [p|] eqn:E.
  - rewrite (nth_error_nth _ _ PNil E). apply held_var. exact H.
  - apply nth_error_None in E. rewrite nth_overflow by exact E.
    exists None. split; [exact H|reflexivity].
Qed.

Lemma returns_means s0 s f ps s1 r p :
  only_adds s0 s -> entered s f ps s1 -> returns s0 ps r p ->
  forall e, dent (st_heap s1) e r -> means s1 e p.
Proof.
  intros A En R.
  assert (Fm : st_fmt s1 = st_fmt s0) by (rewrite (entered_fmt _ _ _ _ En); apply adds_fmt; exact A).
  revert r p R.
  apply (returns_nested s0 ps (fun r p => forall e, dent (st_heap s1) e r -> means s1 e p)).
  - intros i c E e D. inversion D; subst. apply (means_name s1 [c]).
    + apply arg_ordinary. apply nth_error_In in E. cbn in E |- *. tauto.
    + apply held_nth. destruct En as (_ & _ & _ & H & _). exact (H _ _ E).
  - intros e D. inversion D; subst. apply (means_name s1 (s_ "g")).
    + apply arg_ordinary. cbn. tauto.
    + apply held_var. destruct En as (_ & _ & H & _). exact H.
  - intros x p O Lo V e D. inversion D; subst.
    destruct (entered_global _ _ _ _ _ _ _ A En O Lo V) as [O1 V1].
    apply (means_name s1 x); assumption.
  - intros p e D. inversion D; subst. apply means_object. assumption.
  - intros k p E1 E2 E3 e D. inversion D; subst. apply means_literal; assumption.
  - intros text o es qs p Fo V F E e D. inversion D; subst.
    rewrite <- (dents_length _ _ _ H1) in Fo, V.
    assert (X : TApp o l = app text l) by (unfold app; rewrite Fo; reflexivity).
    rewrite X. eapply means_app; [exists o; split; eassumption| |rewrite Fm; exact E].
    eapply means_all; eassumption.
  - intros e p IH e' D. inversion D; subst. inversion H1; subst. inversion H4; subst.
    apply means_parens. apply IH. assumption.
  - intros es qs F e D. inversion D; subst. apply means_display. eapply means_all; eassumption.
Qed.

Theorem function_returns s f r :
  den (st_heap s) f (PBlock [] r) -> computes s f (fun args p => returns s args r p).
Proof.
  intros D. inversion D as [| | | |sts e sts' r' D1 D2|]; subst. inversion D1; subst.
  apply expression_computes. intros s2 ps p s1 A R En.
  refine (returns_means s s2 _ ps s1 r p A En R e _).
  destruct (entered_heap _ _ _ _ En) as [t Ht].
  pose proof (adds_den _ _ _ _ A D) as D'. apply (den_app _ t) in D'. rewrite <- Ht in D'.
  inversion D'; subst. assumption.
Qed.

Lemma computes_weaken s f (F G : list pval -> pval -> Prop) :
  (forall ps p, G ps p -> F ps p) -> computes s f F -> computes s f G.
Proof. intros H C s1 args ps p A D Gp. exact (C s1 args ps p A D (H _ _ Gp)). Qed.

(** ** The function that is built *)
Lemma h_block_function v : h_block v = true <-> is_function v.
Proof.
  split.
  - destruct v; try discriminate. intros _. eexists _, _. reflexivity.
  - intros (sts & r & ->). reflexivity.
Qed.

Theorem builds_code text es s vs s1 :
  building_operator text (length es) -> operands s es vs s1 -> Exists is_function vs ->
  gives s (app text es) (HBlock (flat_map code_stmts vs) (app text (map code_return vs))) s1.
Proof.
  intros (o & Fo & Oa & Om & Of & Os & Or & Ol) Ops Ex.
  pose proof (operands_length _ _ _ _ Ops) as Len.
  destruct (operands_fuel _ _ _ _ Ops) as [k K].
  unfold app. rewrite map_length, Len, Fo. apply gives_evals.
  exists (XR (HBlock (flat_map code_stmts vs) (TApp o (map code_return vs)))), s1.
  split; [|reflexivity]. exists (S (S k)). rewrite eval_app_eq. unfold eval_op.
  rewrite Oa, Om, Of, Os.
  rewrite (bind_step _ _ _ _ _ (prepare_trees _ _ _ _ _ _ Or (K k (le_n k)))).
  rewrite Ol. cbn [andb].
  assert (B : existsb snd (map (fun v => (arg_of v, h_block v)) vs) = true).
  { apply existsb_exists. apply Exists_exists in Ex. destruct Ex as (v & Iv & Fv).
    exists (arg_of v, h_block v). split; [apply in_map_iff; eauto|]. apply h_block_function. exact Fv. }
  rewrite B. rewrite map_map. cbn [fst].
  assert (E : mmap (rval_arg (run k)) (map (fun x => arg_of x) vs) s1 = Ok (map XR vs) s1).
  { clear. induction vs as [|v vs IH]; [reflexivity|]. cbn [map mmap].
    unfold mbind. cbn [arg_of rval_arg rval_x mret]. unfold mret. rewrite IH. reflexivity. }
  rewrite (bind_step _ _ _ _ _ E). unfold xret, mret, lambda_x. f_equal. f_equal. f_equal.
  - clear. induction vs as [|v vs IH]; [reflexivity|]. cbn. rewrite IH. destruct v; reflexivity.
  - f_equal. rewrite map_map. apply map_ext. intros v. destruct v; reflexivity.
Qed.

Lemma code_den h v p :
  den h v p -> (forall sts r, p = PBlock sts r -> sts = []) ->
  code_stmts v = [] /\ dent h (code_return v) (arg_expr p).
Proof.
  intros D H. destruct D as [l s E|r fl|l items ps E Ds|lo hi|sts r sts' r' D1 D2|]; cbn.
  - split; [reflexivity|]. constructor. constructor. exact E.
  - split; [reflexivity|]. constructor. constructor.
  - split; [reflexivity|]. constructor. econstructor; eassumption.
  - split; [reflexivity|]. constructor. constructor.
  - rewrite (H _ _ eq_refl) in D1. inversion D1; subst. split; [reflexivity|exact D2].
  - split; [reflexivity|]. constructor. constructor.
Qed.
Lemma codes_den h vs : forall ps,
  dens h vs ps -> Forall (fun p => forall sts r, p = PBlock sts r -> sts = []) ps ->
  flat_map code_stmts vs = [] /\ dents h (map code_return vs) (map arg_expr ps).
Proof.
  induction vs as [|v vs IH]; intros ps D F; inversion D; subst; cbn [flat_map map].
  - split; [reflexivity|constructor].
  - inversion F; subst. destruct (code_den _ _ _ H1 H2) as [-> D1].
    destruct (IH _ H3 H4) as [-> D2]. split; [reflexivity|constructor; assumption].
Qed.

Lemma pointwise_returns s args ps : forall qs,
  Forall2 (pointwise s args) ps qs -> Forall2 (returns s args) (map arg_expr ps) qs.
Proof.
  induction ps as [|p ps IH]; intros qs F; inversion F; subst; cbn [map]; constructor; [|auto].
  inversion H1; subst; cbn; [assumption|]. destruct y; cbn; try constructor.
  exfalso. eapply H. reflexivity.
Qed.

Theorem builds_pointwise text es s vs s1 ps :
  building_operator text (length es) -> value_operator text (length es) ->
  operands s es vs s1 -> dens (st_heap s1) vs ps -> Exists is_function vs ->
  Forall (fun p => forall sts r, p = PBlock sts r -> sts = []) ps ->
  exists f, gives s (app text es) f s1 /\ is_function f /\
    computes s1 f (fun args q => exists qs, Forall2 (pointwise s1 args) ps qs
                                  /\ snd (run_op (st_fmt s1) text qs) = Val q).
Proof.
  intros B (o & Fo & Vo) Os D Ex No.
  pose proof (operands_length _ _ _ _ Os) as Len. pose proof (dens_length _ _ _ D) as Len2.
  destruct (codes_den _ _ _ D No) as [C1 C2].
  pose proof (builds_code _ _ _ _ _ B Os Ex) as G. rewrite C1 in G.
  eexists. split; [exact G|]. split; [eexists _, _; reflexivity|].
  unfold app. rewrite map_length, Len, Fo.
  eapply computes_weaken; [|apply (function_returns s1 _ (TApp o (map arg_expr ps)));
                            constructor; constructor; exact C2].
  cbn beta. intros args q (qs & F & E).
  apply returns_app with (text := text) (ps := qs).
  - rewrite map_length, <- Len2, Len. exact Fo.
  - rewrite map_length, <- Len2, Len. exact Vo.
  - apply pointwise_returns. exact F.
  - exact E.
Qed.
