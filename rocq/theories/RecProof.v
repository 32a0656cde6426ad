(** * RE, Y, YO and YP *)

From Coq Require Import String List NArith ZArith Bool Arith Lia.
From Verif Require Import PyStr PyRe PyNum Tokens OpFun OpTable Unparse
                          PTypes Ops UserRe OpsSeq Apply Spec StrFacts PFacts RunOp Heap Exec SpecHeap HeapProof
                          ExecRel ExecInv EvalProof
                          SpecScan SpecMain SpecVars VarProof PureProof MutProof
                          CtlProof LoopProof SpecMap MapProof SpecRec.
From Verif Require MainProof.
Import ListNotations.
Local Open Scope string_scope.
Local Open Scope list_scope.
Local Open Scope Z_scope.

(** ** RE *)
Lemma running_scope s s' f : running s f -> scope_rel true s s' -> st_swallowed s' = st_swallowed s -> running s' f.
Proof.
  intros (sc & rest & E & F) [_ H] Sw. rewrite E in H. destruct H as (x & vars & E1 & _ & N).
  rewrite (N eq_refl Sw) in E1. exists (mkscope (sc_fun sc) vars), rest. auto.
Qed.
Theorem gives_running s e v s' f : running s f -> gives s e v s' -> st_swallowed s' = st_swallowed s -> running s' f.
Proof.
  intros Rn [n E] Sw. pose proof (r_rval_tree _ scope_closed _ _ (run_related _ scope_closed n) e s) as H.
  rewrite E in H. eapply running_scope; eassumption.
Qed.
Theorem executes_running s t r s' f : running s f -> executes s t r s' -> st_swallowed s' = st_swallowed s -> running s' f.
Proof.
  intros Rn [n E] Sw. pose proof (re_stmt _ _ _ (run_related _ scope_closed n) t s) as H.
  rewrite E in H. eapply running_scope; eassumption.
Qed.

Theorem recurse s e a s1 f u s' :
  gives s e a s1 -> running s1 f -> gives s (app "RE" [e]) u s' <-> calls s1 f [a] u s'.
Proof.
  intros G (sc & rest & Es & Ef).
  assert (Os : operands s [e] [a] s1) by (econstructor; [exact G|constructor]).
  rewrite (gives_plain "RE" _ [e] s [a] s1 u s' eq_refl eq_refl Os).
  assert (Ec : forall R, call_fun R F_RECURSE (map arg_of [a]) s1 = (r <- i_call R f [a];; xret r) s1).
  { intros R. change (call_fun R F_RECURSE (map arg_of [a]) s1) with
      ((g <- current_fun;; match g with Some g => r <- i_call R g [a];; xret r | None => fail (EPy AttributeError) end) s1).
    assert (C : current_fun s1 = Ok (Some f) s1) by (unfold current_fun; rewrite Es, Ef; reflexivity).
    rewrite (bind_step _ _ _ _ _ C). reflexivity. }
  split.
  - intros (x & s2 & H1 & H2). apply (ends_eq _ (fun R => r <- i_call R f [a];; xret r) s1 s1 x s2 Ec) in H1.
    rewrite (ends_bind (fun R => i_call R f [a]) (fun R r => xret r)) in H1; [|apply steady_call|intros; apply steady_const].
    destruct H1 as (v & s3 & H1 & H3). apply ends_const in H3. injection H3 as <- <-.
    injection H2 as -> ->. exact H1.
  - intros C. exists (XR u), s'. split; [|reflexivity].
    apply (ends_eq _ (fun R => r <- i_call R f [a];; xret r) s1 s1 (XR u) s' Ec).
    rewrite (ends_bind (fun R => i_call R f [a]) (fun R r => xret r)); [|apply steady_call|intros; apply steady_const].
    exists u, s'. split; [exact C|apply ends_const; reflexivity].
Qed.

(** ** Y, YO, YP *)
Lemma y_ordinary s : ordinary s (s_ "y").
Proof. split; [apply name_lower; [reflexivity|discriminate]|]. split; [discriminate|]. split; discriminate. Qed.

Lemma yank_ok s v p : den (st_heap s) v p -> st_scopes s <> [] ->
  exists w s1 s', YANK v s = Ok (XL (LName (s_ "y") [] None)) s1 /\ rval_h (XL (LName (s_ "y") [] None)) s1 = Ok w s'
    /\ den (st_heap s') w p /\ var s' (s_ "y") p /\ changes_only (s_ "y") s s'.
Proof.
  intros D NS. pose proof (y_ordinary s) as O.
  destruct (store_ok (mret v) (mret (XL (LName (s_ "y") [] None))) s (s_ "y") (XL (LName (s_ "y") [] None)) p O NS) as (s1 & E & C & V).
  { apply yields_ret. exact D. }
  { reflexivity. }
  pose proof (name_readable s1 (s_ "y") p (y_ordinary _) V) as Rd.
  destruct (Rd s1 (adv_refl _)) as (w & s' & E2 & A & Dw).
  exists w, s1, s'. split; [exact E|]. split; [exact E2|]. split; [exact Dw|].
  split; [exact (adv_var _ _ _ _ A V)|]. eapply adv_changes; [apply moved_changes; exact C|exact A].
Qed.
Lemma yank_any text o s e v s1 sp p :
  op_by_arity 1 (s_ text) = Some o -> MainProof.plain_rvals o = true ->
  gives s e v s1 -> (forall R, call_fun R (o_fun o) (map arg_of [v]) s1 = YANK v sp) ->
  den (st_heap sp) v p -> st_scopes sp <> [] ->
  exists w s', gives s (app text [e]) w s' /\ den (st_heap s') w p /\ var s' (s_ "y") p
    /\ changes_only (s_ "y") sp s'.
Proof.
  intros F P G Ec D NS. destruct (yank_ok sp v p D NS) as (w & s2 & s' & E1 & E2 & Dw & V & C).
  exists w, s'. split; [|auto].
  assert (Os : operands s [e] [v] s1) by (econstructor; [exact G|constructor]).
  rewrite (gives_plain text o [e] s [v] s1 w s' F P Os). exists (XL (LName (s_ "y") [] None)), s2.
  split; [|exact E2]. exists O. rewrite Ec. exact E1.
Qed.
Theorem yank_does s e v s1 p : gives s e v s1 -> den (st_heap s1) v p -> st_scopes s1 <> [] ->
  exists w s', gives s (app "Y" [e]) w s' /\ den (st_heap s') w p /\ var s' (s_ "y") p
    /\ changes_only (s_ "y") s1 s'.
Proof. intros G D NS. apply (yank_any "Y" _ s e v s1 s1 p eq_refl eq_refl G); auto. Qed.
Theorem yank_output s e v s1 p : gives s e v s1 -> den (st_heap s1) v p -> p <> PNil -> st_scopes s1 <> [] ->
  exists w s', gives s (app "YO" [e]) w s' /\ den (st_heap s') w p /\ var s' (s_ "y") p
    /\ changes_only (s_ "y") (printed (listing (st_fmt s1) p) s1) s'.
Proof.
  intros G D N NS. apply (yank_any "YO" _ s e v s1 _ p eq_refl eq_refl G); [|exact D|exact NS].
  intros R. transitivity ((OUTPUT v;; YANK v) s1); [reflexivity|].
  rewrite (bind_step _ _ _ _ _ (proj1 (MainProof.output_ok v p s1 D N))). reflexivity.
Qed.
Theorem yank_print s e v s1 p : gives s e v s1 -> den (st_heap s1) v p -> p <> PNil -> st_scopes s1 <> [] ->
  exists w s', gives s (app "YP" [e]) w s' /\ den (st_heap s') w p /\ var s' (s_ "y") p
    /\ changes_only (s_ "y") (printed (listing (st_fmt s1) p ++ [10%N]) s1) s'.
Proof.
  intros G D N NS. apply (yank_any "YP" _ s e v s1 _ p eq_refl eq_refl G); [|exact D|exact NS].
  intros R. transitivity ((PRINT v;; YANK v) s1); [reflexivity|].
  rewrite (bind_step _ _ _ _ _ (proj2 (MainProof.output_ok v p s1 D N))). reflexivity.
Qed.
Theorem yank_nil text s e v s1 : In text ["Y"; "YO"; "YP"] ->
  gives s e v s1 -> den (st_heap s1) v PNil -> st_scopes s1 <> [] ->
  exists w s', gives s (app text [e]) w s' /\ den (st_heap s') w PNil /\ var s' (s_ "y") PNil
    /\ changes_only (s_ "y") s1 s'.
Proof.
  intros I G D NS. inversion D; subst.
  destruct I as [<-|[<-|[<-|[]]]]; [apply (yank_any "Y" _ s e _ s1 s1 PNil eq_refl eq_refl G)
    |apply (yank_any "YO" _ s e _ s1 s1 PNil eq_refl eq_refl G)
    |apply (yank_any "YP" _ s e _ s1 s1 PNil eq_refl eq_refl G)]; auto.
Qed.
