(** * Folds, scans and chains *)

From Coq Require Import String List NArith ZArith Bool Arith Lia.
From Verif Require Import PyStr PyRe PyNum Tokens OpFun OpTable Parse PrecProof Unparse
                          PTypes Ops OpsSeq Apply Spec StrFacts PFacts SeqProof ItemProof RunOp
                          Heap Exec SpecHeap HeapProof ExecRel ExecInv EvalProof
                          SpecScan SpecVars VarProof CtlProof PureProof LoopProof MutProof SpecMeta.
Import ListNotations.
Local Open Scope string_scope.
Local Open Scope list_scope.
Local Open Scope Z_scope.

(** ** The operators of the table carry no modifiers *)
Lemma table_modifiers n text o : op_by_arity n text = Some o ->
  o_assign o = false /\ o_map o = false /\ o_fold o = false /\ o_scan o = false.
Proof.
  assert (C : forallb (fun a => negb (o_assign a || o_map a || o_fold a || o_scan a)) all_ops = true)
    by (vm_compute; reflexivity).
  intros H. apply in_table in H. destruct H as [I _]. rewrite forallb_forall in C.
  specialize (C o I). cbv beta in C. apply negb_true_iff in C.
  repeat (apply orb_false_elim in C; destruct C as [C ?]). auto.
Qed.

Lemma inner_fold n text o : op_by_arity n text = Some o -> clear_fold (op_set_fold o) = inner o.
Proof.
  intros H. apply table_modifiers in H. destruct o. cbn in H. destruct H as (-> & -> & -> & ->).
  reflexivity.
Qed.
Lemma inner_scan n text o : op_by_arity n text = Some o -> clear_scan (op_set_scan o) = inner o.
Proof.
  intros H. apply table_modifiers in H. destruct o. cbn in H. destruct H as (-> & -> & -> & ->).
  reflexivity.
Qed.

Lemma steady_op o l : steady (fun R => i_op R o l).
Proof. intros R R' H. apply (re_op _ _ _ H). Qed.
Lemma steady_fold_items o l : steady (fun R => fold_items R o l).
Proof. intros R R' H. apply (r_fold_items _ le_fuel_closed _ _ H). Qed.
Lemma steady_scan_items o l : steady (fun R => scan_items R o l).
Proof. intros R R' H. apply (r_scan_items _ le_fuel_closed _ _ H). Qed.

(** ** Repeated application *)
Section Accumulate.
  Variable f : interp -> xval -> hval -> M xval.
  Hypothesis Sf : forall x v, steady (fun R => f R x v).
  Definition fstep s acc v r s' := ends (fun R => f R acc v) s r s'.

  Lemma steady_mfold l : forall acc, steady (fun R => mfold (f R) acc l).
  Proof.
    intros acc R R' H. apply (r_mfold _ le_fuel_closed). intros x v. exact (Sf x v _ _ H).
  Qed.
  Lemma steady_mscan l : forall acc, steady (fun R => mscan (f R) acc l).
  Proof.
    intros acc R R' H. apply (r_mscan _ le_fuel_closed). intros x v. exact (Sf x v _ _ H).
  Qed.

  Lemma ends_mfold l : forall s acc x s',
    ends (fun R => mfold (f R) acc l) s x s' <-> exists rs, accumulates fstep s acc l rs x s'.
  Proof.
    induction l as [|v l IH]; intros s acc x s'; cbn [mfold].
    - rewrite ends_const. unfold mret. split.
      + intros E. injection E as <- <-. exists [acc]. constructor.
      + intros [rs A]. inversion A; subst. reflexivity.
    - rewrite (ends_bind (fun R => f R acc v) (fun R a => mfold (f R) a l) _ _ _ (Sf acc v)
                 (steady_mfold l)).
      split.
      + intros (a & s1 & E1 & E2). apply IH in E2. destruct E2 as [rs A].
        exists (acc :: rs). econstructor; eassumption.
      + intros [rs A]. inversion A; subst. do 2 eexists. split; [eassumption|]. apply IH. eauto.
  Qed.
  Lemma ends_mscan l : forall s acc rs s',
    ends (fun R => mscan (f R) acc l) s rs s' <-> exists x, accumulates fstep s acc l rs x s'.
  Proof.
    induction l as [|v l IH]; intros s acc rs s'; cbn [mscan].
    - rewrite ends_const. unfold mret. split.
      + intros E. injection E as <- <-. exists acc. constructor.
      + intros [x A]. inversion A; subst. reflexivity.
    - assert (SB : forall a, steady (fun R => rest <- mscan (f R) a l;; mret (acc :: rest))).
      { intros a. apply (steady_bind (fun R => mscan (f R) a l) (fun R rest => mret (acc :: rest))).
        - apply steady_mscan.
        - intros rest. apply steady_const. }
      rewrite (ends_bind (fun R => f R acc v)
                 (fun R a => rest <- mscan (f R) a l;; mret (acc :: rest)) _ _ _ (Sf acc v) SB).
      split.
      + intros (a & s1 & E1 & E2).
        rewrite (ends_bind (fun R => mscan (f R) a l) (fun R rest => mret (acc :: rest)) _ _ _
                  (steady_mscan l a) (fun rest => steady_const _)) in E2.
        destruct E2 as (rest & s2 & E2 & E3). rewrite ends_const in E3. injection E3 as <- <-.
        apply IH in E2. destruct E2 as [x A]. exists x. econstructor; eassumption.
      + intros [x A]. inversion A as [|? ? ? ? acc' s1 rs0 ? ? E1 A1]; subst.
        exists acc', s1. split; [exact E1|].
        rewrite (ends_bind (fun R => mscan (f R) acc' l) (fun R rest => mret (acc :: rest)) _ _ _
                  (steady_mscan l acc') (fun rest => steady_const _)).
        exists rs0, s'. split; [apply IH; eauto|]. apply ends_const. reflexivity.
  Qed.
End Accumulate.

Definition left_step (o : oper) (R : interp) (acc : xval) (v : hval) : M xval :=
  i_op R o [AVal acc; AVal (XR v)].
Definition right_step (o : oper) (R : interp) (acc : xval) (v : hval) : M xval :=
  i_op R o [AVal (XR v); AVal acc].

Lemma rev_cons_eq {A} (l : list A) v vs : rev l = v :: vs -> l = rev vs ++ [v].
Proof. intros E. rewrite <- (rev_involutive l), E. reflexivity. Qed.

Lemma fold_items_nested o s vs x s' :
  o_assoc o = ALeft \/ o_assoc o = ARight ->
  ends (fun R => fold_items R o vs) s x s' <-> exists rs, nested o s vs rs x s'.
Proof.
  intros [L|L]; unfold fold_items; rewrite L.
  - destruct vs as [|v vs].
    + split; [intros [n E]; discriminate|]. intros [rs N].
      inversion N; congruence.
    + rewrite (ends_mfold (left_step o) (fun x v => steady_op o _) vs s (XR v) x s').
      split; intros [rs A]; exists rs.
      * apply nested_left; [exact L|exact A].
      * inversion A; subst; [assumption|congruence].
  - destruct (rev vs) as [|v l] eqn:E.
    + split; [intros [n F]; discriminate|]. intros [rs N].
      inversion N; subst; [congruence|]. rewrite rev_app_distr in E. discriminate.
    + apply rev_cons_eq in E. subst vs.
      rewrite (ends_mfold (right_step o) (fun x v => steady_op o _) l s (XR v) x s').
      split; intros [rs A].
      * exists (rev rs). apply nested_right; [exact L|exact A].
      * inversion A as [|v0 vs0 rs0 ? ? ? A0 Q]; subst; [congruence|].
        apply (f_equal (@rev hval)) in Q. rewrite !rev_app_distr, !rev_involutive in Q.
        cbn in Q. injection Q as -> ->. exists rs0. exact A0.
Qed.
Lemma scan_items_nested o s vs rs s' :
  o_assoc o = ALeft \/ o_assoc o = ARight ->
  ends (fun R => scan_items R o vs) s rs s' <-> exists x, nested o s vs rs x s'.
Proof.
  intros [L|L]; unfold scan_items; rewrite L.
  - destruct vs as [|v vs].
    + split; [intros [n E]; discriminate|]. intros [x N].
      inversion N; congruence.
    + rewrite (ends_mscan (left_step o) (fun x v => steady_op o _) vs s (XR v) rs s').
      split; intros [x A]; exists x.
      * apply nested_left; [exact L|exact A].
      * inversion A; subst; [assumption|congruence].
  - destruct (rev vs) as [|v l] eqn:E.
    + split; [intros [n F]; discriminate|]. intros [x N].
      inversion N; subst; [congruence|]. rewrite rev_app_distr in E. discriminate.
    + apply rev_cons_eq in E. subst vs.
      change (ends (fun R => mbind (mscan (right_step o R) (XR v) l) (fun rs => mret (rev rs))) s rs s'
              <-> exists x, nested o s (rev l ++ [v]) rs x s').
      rewrite (ends_bind (fun R => mscan (right_step o R) (XR v) l) (fun R rs => mret (rev rs)) _ _ _
                (steady_mscan (right_step o) (fun x v => steady_op o _) l (XR v))
                (fun rest => steady_const _)).
      split.
      * intros (rs0 & s1 & E1 & E2). rewrite ends_const in E2. injection E2 as <- <-.
        apply (ends_mscan (right_step o) (fun x v => steady_op o _)) in E1.
        destruct E1 as [x A]. exists x. apply nested_right; [exact L|exact A].
      * intros [x A].
        inversion A as [|v0 vs0 rs0 ? ? ? A0 Q]; subst; [congruence|].
        apply (f_equal (@rev hval)) in Q. rewrite !rev_app_distr, !rev_involutive in Q.
        cbn in Q. injection Q as -> ->. exists rs0, s'. split.
        -- apply (ends_mscan (right_step o) (fun x v => steady_op o _)). exists x. exact A0.
        -- apply ends_const. reflexivity.
Qed.

(** ** The meta-operators on a sequence *)
Lemma meta_ends (K : interp -> hval -> M xval) s e v s1 x s' :
  (forall w, steady (fun R => K R w)) -> gives s e v s1 ->
  ends (fun R => mbind (rval_tree R e) (K R)) s x s' <-> ends (fun R => K R v) s1 x s'.
Proof.
  intros SK G. rewrite (ends_bind (fun R => rval_tree R e) K _ _ _ (steady_rval e) SK). split.
  - intros (w & s2 & E1 & E2). destruct (ends_fun _ _ _ _ _ _ (steady_rval e) G E1) as [-> ->].
    exact E2.
  - intros E. exists v, s1. split; [exact G|exact E].
Qed.

Definition fold_rest (o : oper) (R : interp) (v : hval) : M xval :=
  let o' := clear_fold o in
  match v with
  | HBlock sts r => meta_block o sts r
  | HNil => mret xnil
  | HPat _ _ => xwarn "FOLDMETA"
  | HRange _ None => xwarn "FOLDMETA: infinite"
  | _ => items <- h_list v;;
         match items with
         | [] => d <- fresh (default_val (o_default o));; xret d
         | _ => fold_items R o' items
         end
  end.
Definition scan_end (rs : list xval) : M xval :=
  rs <- mmap to_r rs;; rs <- copies rs;; l <- new_list rs;; xret l.
Definition scan_rest (o : oper) (R : interp) (v : hval) : M xval :=
  let o' := clear_scan o in
  match v with
  | HBlock sts r => meta_block o sts r
  | HNil => mret xnil
  | HPat _ _ => xwarn "SCANMETA"
  | HRange _ None => xwarn "SCANMETA: infinite"
  | _ => items <- h_list v;;
         match items with
         | [] => l <- new_list [];; xret l
         | _ => rs <- scan_items R o' items;; scan_end rs
         end
  end.

Lemma steady_fold_rest o w : steady (fun R => fold_rest o R w).
Proof.
  assert (Q : forall w, steady (fun R => items <- h_list w;;
         match items with
         | [] => d <- fresh (default_val (o_default o));; xret d
         | _ => fold_items R (clear_fold o) items
         end)).
  { intros u. apply steady_bind; [apply steady_const|].
    intros [|a items]; [apply steady_const|apply steady_fold_items]. }
  destruct w as [l|r n|l|lo [u|]|sts r|]; unfold fold_rest; cbv zeta;
    try apply steady_const; apply Q.
Qed.
Lemma steady_scan_rest o w : steady (fun R => scan_rest o R w).
Proof.
  assert (Q : forall w, steady (fun R => items <- h_list w;;
         match items with
         | [] => l <- new_list [];; xret l
         | _ => rs <- scan_items R (clear_scan o) items;; scan_end rs
         end)).
  { intros u. apply steady_bind; [apply steady_const|].
    intros [|a items]; [apply steady_const|].
    apply (steady_bind (fun R => scan_items R (clear_scan o) (a :: items)) (fun R rs => scan_end rs));
      [apply steady_scan_items|intros; apply steady_const]. }
  destruct w as [l|r n|l|lo [u|]|sts r|]; unfold scan_rest; cbv zeta;
    try apply steady_const; apply Q.
Qed.

Lemma h_list_ok s v p l :
  den (st_heap s) v p -> elems p l ->
  exists vs s2, adv s s2 /\ dens (st_heap s2) vs l /\ h_list v s = Ok vs s2
    /\ (forall o R, fold_rest o R v s = match vs with
           | [] => d <- fresh (default_val (o_default o));; xret d
           | _ => fold_items R (clear_fold o) vs
           end s2)
    /\ (forall o R, scan_rest o R v s = match vs with
           | [] => l <- new_list [];; xret l
           | _ => rs <- scan_items R (clear_scan o) vs;; scan_end rs
           end s2).
Proof.
  intros D E. destruct (yields_iter v p l s D (elems_p_iter _ _ E)) as (vs & s2 & E2 & A2 & D2).
  assert (L : h_list v s = Ok vs s2).
  { destruct v as [| | |lo [u|]| |]; try exact E2. inversion D; subst. inversion E. }
  exists vs, s2. split; [exact A2|]. split; [exact D2|]. split; [exact L|].
  split; intros o R; inversion D; subst; inversion E; subst;
    unfold fold_rest, scan_rest; cbv zeta; rewrite (bind_step _ _ _ _ _ L); reflexivity.
Qed.

Section Sequence.
  Variables (text : str) (o : oper) (s : state) (e : tree hval) (v : hval) (s1 : state).
  Hypothesis Op : op_by_arity 2 text = Some o.
  Hypothesis G : gives s e v s1.

  Lemma evals_folded x s' :
    evals s (folded o e) x s' <-> ends (fun R => fold_rest (op_set_fold o) R v) s1 x s'.
  Proof.
    unfold folded. rewrite evals_app.
    rewrite <- (meta_ends (fold_rest (op_set_fold o)) s e v s1 x s'
                 (steady_fold_rest (op_set_fold o)) G).
    destruct (table_modifiers _ _ _ Op) as (A & M & _ & _).
    unfold ends. split; intros [n E]; exists n; revert E; unfold eval_op;
      cbn [op_set_fold o_assign o_map o_fold map]; rewrite A, M; exact (fun E => E).
  Qed.
  Lemma evals_scanned x s' :
    evals s (scanned o e) x s' <-> ends (fun R => scan_rest (op_set_scan o) R v) s1 x s'.
  Proof.
    unfold scanned. rewrite evals_app.
    rewrite <- (meta_ends (scan_rest (op_set_scan o)) s e v s1 x s'
                 (steady_scan_rest (op_set_scan o)) G).
    destruct (table_modifiers _ _ _ Op) as (A & M & F & _).
    unfold ends. split; intros [n E]; exists n; revert E; unfold eval_op;
      cbn [op_set_scan o_assign o_map o_fold o_scan map]; rewrite A, M, F; exact (fun E => E).
  Qed.
End Sequence.

Lemma value_of_iff x s v s' : rval_h x s = Ok v s' <-> value_of x s v s'.
Proof.
  split.
  - destruct x as [w|lv|o]; cbn [rval_h]; intros E.
    + injection E as -> ->. constructor.
    + constructor. exact E.
    + discriminate.
  - intros H. destruct H as [|lv s v s' E]; [reflexivity|exact E].
Qed.

Lemma mmap_to_r rs : forall s ws s', mmap to_r rs s = Ok ws s' <-> rs = map XR ws /\ s' = s.
Proof.
  induction rs as [|r rs IH]; intros s ws s'; cbn [mmap].
  - unfold mret. split.
    + intros E. injection E as <- <-. auto.
    + intros [E ->]. destruct ws; [reflexivity|discriminate].
  - split.
    + intros E. bind_inv E. bind_inv E. injection E as <- <-.
      destruct r as [w|lv|o]; try discriminate. injection E0 as <- <-.
      apply IH in E1. destruct E1 as [-> ->]. auto.
    + intros [E ->]. destruct ws as [|w ws]; [discriminate|]. injection E as -> ->.
      assert (Q : mmap to_r (map XR ws) s = Ok ws s) by (apply IH; auto).
      unfold mbind. cbn [to_r]. unfold mret at 1. rewrite Q. reflexivity.
Qed.

(** Copying and listing the results of a scan. *)
Lemma scan_end_ok ws ps s :
  dens (st_heap s) ws ps ->
  exists w s', scan_end (map XR ws) s = Ok (XR w) s' /\ den (st_heap s') w (PList ps)
    /\ adv s s'.
Proof.
  intros D.
  assert (Y : yields (rs <- copies ws;; l <- new_list rs;; xret l) s
                (fun x s' => exists w, x = XR w /\ den (st_heap s') w (PList ps))).
  { eapply yields_bind; [apply yields_copies; exact D|]. intros cs s1 A1 D1.
    eapply yields_bind; [apply yields_new_list; exact D1|]. intros w s2 A2 D2.
    apply yields_ret. exists w. auto. }
  destruct Y as (x & s' & E & A & w & -> & Dw). exists w, s'. split; [|auto].
  unfold scan_end. rewrite (bind_step _ _ _ _ _ (proj2 (mmap_to_r _ s ws s) (conj eq_refl eq_refl))).
  exact E.
Qed.

Lemma fold_scan_adv text o s e v s1 p l :
  op_by_arity 2 (s_ text) = Some o -> o_assoc o = ALeft \/ o_assoc o = ARight ->
  gives s e v s1 -> den (st_heap s1) v p -> elems p l -> l <> [] ->
  exists vs s2, adv s1 s2 /\ dens (st_heap s2) vs l /\
    (forall w s', gives s (folded o e) w s' <->
       exists rs r s3, nested (inner o) s2 vs rs r s3 /\ value_of r s3 w s') /\
    (forall w s', gives s (scanned o e) w s' ->
       exists ws r s3, nested (inner o) s2 vs (map XR ws) r s3) /\
    (forall ws r s3 ps, nested (inner o) s2 vs (map XR ws) r s3 -> dens (st_heap s3) ws ps ->
       exists w s', gives s (scanned o e) w s' /\ den (st_heap s') w (PList ps)
                    /\ adv s3 s').
Proof.
  intros Op As G D E Ne.
  destruct (h_list_ok s1 v p l D E) as (vs & s2 & A2 & D2 & _ & F & Sc).
  assert (Nv : vs <> []).
  { intros ->. inversion D2; subst. congruence. }
  assert (As' : o_assoc (inner o) = ALeft \/ o_assoc (inner o) = ARight) by exact As.
  exists vs, s2. split; [exact A2|]. split; [exact D2|].
  assert (FN : forall x s', evals s (folded o e) x s' <-> exists rs, nested (inner o) s2 vs rs x s').
  { intros x s'. rewrite (evals_folded _ _ _ _ _ _ Op G).
    rewrite <- (fold_items_nested _ _ _ _ _ As'). rewrite <- (inner_fold _ _ _ Op).
    unfold ends. split; intros [n H]; exists n; rewrite F in *; destruct vs; try congruence; exact H. }
  assert (SN : forall x s', evals s (scanned o e) x s' <->
    exists rs r s3, nested (inner o) s2 vs rs r s3 /\ scan_end rs s3 = Ok x s').
  { intros x s'. rewrite (evals_scanned _ _ _ _ _ _ Op G).
    assert (Q : ends (fun R => scan_rest (op_set_scan o) R v) s1 x s' <->
                ends (fun R => rs <- scan_items R (inner o) vs;; scan_end rs) s2 x s').
    { rewrite <- (inner_scan _ _ _ Op).
      unfold ends. split; intros [n H]; exists n; rewrite Sc in *; destruct vs; try congruence; exact H. }
    rewrite Q.
    rewrite (ends_bind (fun R => scan_items R (inner o) vs) (fun R rs => scan_end rs) _ _ _
               (steady_scan_items _ _) (fun rs => steady_const _)).
    split.
    - intros (rs & s3 & E1 & E2). apply (scan_items_nested _ _ _ _ _ As') in E1.
      destruct E1 as [r N]. rewrite ends_const in E2. eauto.
    - intros (rs & r & s3 & N & E2). exists rs, s3. split.
      + apply (scan_items_nested _ _ _ _ _ As'). eauto.
      + apply ends_const. exact E2. }
  split; [|split].
  - intros w s'. rewrite gives_evals. split.
    + intros (x & s3 & E1 & E2). apply FN in E1. destruct E1 as [rs N].
      exists rs, x, s3. split; [exact N|]. apply value_of_iff. exact E2.
    + intros (rs & x & s3 & N & E2). exists x, s3. split; [apply FN; eauto|].
      apply value_of_iff. exact E2.
  - intros w s' Gs. apply gives_evals in Gs. destruct Gs as (x & s4 & E1 & E2).
    apply SN in E1. destruct E1 as (rs & r & s3 & N & E3). unfold scan_end in E3. bind_inv E3.
    apply mmap_to_r in E0. destruct E0 as [-> ->]. eauto.
  - intros ws r s3 ps N Dw. destruct (scan_end_ok ws ps s3 Dw) as (w & s' & E1 & Dl & A).
    exists w, s'. split; [|split; [exact Dl|exact A]].
    apply gives_evals. exists (XR w), s'. split; [apply SN; eauto 6|reflexivity].
Qed.

Theorem fold_scan text o s e v s1 p l :
  op_by_arity 2 (s_ text) = Some o -> o_assoc o = ALeft \/ o_assoc o = ARight ->
  gives s e v s1 -> den (st_heap s1) v p -> elems p l -> l <> [] ->
  exists vs s2, only_adds s1 s2 /\ dens (st_heap s2) vs l /\
    (forall w s', gives s (folded o e) w s' <->
       exists rs r s3, nested (inner o) s2 vs rs r s3 /\ value_of r s3 w s') /\
    (forall w s', gives s (scanned o e) w s' ->
       exists ws r s3, nested (inner o) s2 vs (map XR ws) r s3) /\
    (forall ws r s3 ps, nested (inner o) s2 vs (map XR ws) r s3 -> dens (st_heap s3) ws ps ->
       exists w s', gives s (scanned o e) w s' /\ den (st_heap s') w (PList ps)
                    /\ only_adds s3 s').
Proof.
  intros Op As G D E Ne.
  destruct (fold_scan_adv text o s e v s1 p l Op As G D E Ne) as (vs & s2 & A2 & D2 & FN & SF & SN).
  exists vs, s2. split; [apply adv_only_adds; exact A2|]. split; [exact D2|]. split; [exact FN|].
  split; [exact SF|]. intros ws r s3 ps N Dw.
  destruct (SN ws r s3 ps N Dw) as (w & s' & Gs & Dl & A). exists w, s'.
  split; [exact Gs|]. split; [exact Dl|]. apply adv_only_adds. exact A.
Qed.

Lemma accumulates_length f s acc vs rs r s' :
  accumulates f s acc vs rs r s' -> length rs = S (length vs) /\ forall d, last rs d = r.
Proof.
  induction 1 as [|s acc v vs acc' s1 rs r s2 F A [IH1 IH2]]; [split; reflexivity|].
  split; [cbn; rewrite IH1; reflexivity|]. intros d. specialize (IH2 d).
  destruct rs; [discriminate|]. exact IH2.
Qed.
Theorem fold_is_end o s vs rs r s' :
  nested o s vs rs r s' ->
  length rs = length vs
  /\ (o_assoc o = ALeft -> forall d, last rs d = r)
  /\ (o_assoc o = ARight -> forall d, hd d rs = r).
Proof.
  intros N. destruct N as [v vs rs r s' As A|v vs rs r s' As A];
    apply accumulates_length in A; destruct A as [L H].
  - split; [exact L|]. split; [intros _; exact H|congruence].
  - split; [rewrite rev_length, app_length, rev_length; cbn; lia|].
    split; [congruence|]. intros _ d. rewrite <- (H d).
    clear. induction rs as [|a rs IH] using rev_ind; [reflexivity|].
    rewrite rev_app_distr, last_last. reflexivity.
Qed.

(** ** On values *)
Lemma plain_items v l : plain v = true -> p_iter v = Val l -> Forall (fun x => plain x = true) l.
Proof.
  intros P E. destruct v as [t|r n|l0|lo [u|]|sts r|]; cbn [p_iter] in E; try discriminate;
    injection E as <-.
  - apply Forall_forall. intros x I. apply in_map_iff in I. destruct I as (c & <- & _). reflexivity.
  - apply Forall_forall. intros x I. apply in_map_iff in I. destruct I as (c & <- & _). reflexivity.
  - apply Forall_forall. cbn [plain] in P. rewrite forallb_forall in P. exact P.
  - apply Forall_forall. intros x I. apply in_map_iff in I. destruct I as (c & <- & _). reflexivity.
  - constructor.
Qed.

Lemma plain_zip k v : plain v = true -> forall x, In x (zip_items k v) -> plain x = true.
Proof.
  intros P x I. destruct v as [t|r n|l0|lo [u|]|sts r|]; cbn [zip_items] in I; try contradiction.
  - cbn [plain] in P. rewrite forallb_forall in P. exact (P x I).
  - apply in_map_iff in I. destruct I as (c & <- & _). reflexivity.
  - apply in_map_iff in I. destruct I as (c & <- & _). reflexivity.
Qed.
Lemma plain_each (k : list pval -> pm pval) v (f g : pval -> pm pval) :
  plain v = true -> (forall x, plain x = true -> f x = g x) ->
  (do l <- (do items <- lift (p_iter v); mapM f items); k l)
  = (do l <- (do items <- lift (p_iter v); mapM g items); k l).
Proof.
  intros P H. destruct (p_iter v) as [l|e] eqn:E; [|reflexivity].
  rewrite !bind_lift_val. rewrite (mapM_ext_in f g l); [reflexivity|].
  intros x I. apply H. pose proof (plain_items _ _ P E) as F. rewrite Forall_forall in F.
  exact (F x I).
Qed.
Lemma plain_block v : plain v = true -> is_block v = false.
Proof. destruct v; try reflexivity. discriminate. Qed.

(** The recorded number of operands does not matter. *)
Lemma apply_inner fmt o : forall f args, forallb plain args = true ->
  apply_fuel fmt (inner o) f args = apply_fuel fmt o f args.
Proof.
  induction f as [|f IH]; intros args P; cbn [apply_fuel]; cbn [inner o_flags].
  - assert (B : existsb is_block args = false).
    { clear -P. induction args as [|a args IH]; [reflexivity|]. cbn in *.
      apply andb_prop in P. destruct P as [Pa P]. rewrite (plain_block _ Pa), IH by exact P.
      reflexivity. }
    rewrite B, andb_false_r. destruct args as [|a [|b [|c args]]]; reflexivity.
  - assert (B : existsb is_block args = false).
    { clear -P. induction args as [|a args IH]; [reflexivity|]. cbn in *.
      apply andb_prop in P. destruct P as [Pa P]. rewrite (plain_block _ Pa), IH by exact P.
      reflexivity. }
    rewrite B, andb_false_r. destruct args as [|a [|b [|c args]]]; try reflexivity.
    + cbn in P. rewrite andb_true_r in P.
      destruct (expands (o_flags o) a); [|reflexivity].
      apply plain_each; [exact P|]. intros x Px. apply IH. cbn. rewrite Px. reflexivity.
    + cbn in P. rewrite andb_true_r in P. apply andb_prop in P. destruct P as [Pa Pb].
      destruct (expands (o_flags o) a), (expands (o_flags o) b); cbn [orb andb]; try reflexivity.
      * destruct (infinite a && infinite b); [reflexivity|]. f_equal.
        apply mapM_ext_in. intros [x y] I. apply IH. cbn [fst snd].
        unfold zip_args in I.
        pose proof (in_combine_l _ _ _ _ I) as H1. pose proof (in_combine_r _ _ _ _ I) as H2.
        apply (plain_zip _ _ Pa) in H1. apply (plain_zip _ _ Pb) in H2. cbn. rewrite H1, H2.
        reflexivity.
      * apply plain_each; [exact Pa|]. intros x Px. apply IH. cbn. rewrite Px, Pb. reflexivity.
      * apply plain_each; [exact Pb|]. intros x Px. apply IH. cbn. rewrite Px, Pa. reflexivity.
Qed.

Lemma value_op_inner o n : value_op o n -> value_op (inner o) n.
Proof. intros [A M F S R V]. constructor; try reflexivity; [exact R|exact V]. Qed.

Lemma applies_value text o s va vb a b c :
  op_by_arity 2 (s_ text) = Some o -> value_op o 2 ->
  den (st_heap s) va a -> den (st_heap s) vb b -> plain a = true -> plain b = true ->
  snd (run_op (st_fmt s) text [a; b]) = Val c ->
  exists w s', applies (inner o) s [XR va; XR vb] (XR w) s' /\ adv s s' /\ den (st_heap s') w c.
Proof.
  intros Op V Da Db Pa Pb E. unfold run_op in E. cbn [length] in E. rewrite Op in E.
  assert (E' : snd (apply_op (st_fmt s) (inner o) [a; b]) = Val c).
  { unfold apply_op in *. rewrite apply_inner; [exact E|]. cbn. rewrite Pa, Pb. reflexivity. }
  assert (Ds : dens (st_heap s) [va; vb] [a; b]) by (repeat constructor; assumption).
  destruct (op_values (inner o) [va; vb] [a; b] s c (value_op_inner _ _ V) Ds E')
    as (n & w & s' & E1 & A & D).
  exists w, s'. split; [exists n; exact E1|auto].
Qed.

Lemma left_ok text o : op_by_arity 2 (s_ text) = Some o -> value_op o 2 ->
  forall fmt a l rs, results_left fmt text a l rs ->
  forall s va vs, st_fmt s = fmt -> plain a = true -> forallb plain l = true ->
    den (st_heap s) va a -> dens (st_heap s) vs l ->
  exists ws w s', accumulates (fun s acc v => applies (inner o) s [acc; XR v])
                    s (XR va) vs (map XR ws) (XR w) s'
    /\ adv s s' /\ dens (st_heap s') ws rs.
Proof.
  intros Op V fmt a l rs H.
  induction H as [a|a b l c rs E Pc H IH]; intros s va vs Fm Pa Pl Da Dl.
  - inversion Dl; subst. exists [va], va, s. split; [constructor|]. split; [apply adv_refl|].
    repeat constructor. exact Da.
  - inversion Dl as [|vb ? vs0 ? Db D0]; subst. cbn [forallb] in Pl. apply andb_prop in Pl.
    destruct Pl as [Pb Pl].
    destruct (applies_value text o s va vb a b c Op V Da Db Pa Pb E) as (w & s1 & Ap & A1 & Dw).
    destruct (IH s1 w vs0 (adv_fmt _ _ A1) Pc Pl Dw (adv_dens _ _ _ _ A1 D0))
      as (ws & w' & s' & Ac & A2 & Ds).
    exists (va :: ws), w', s'. split; [|split].
    + cbn [map]. econstructor; [exact Ap|exact Ac].
    + exact (adv_trans _ _ _ A1 A2).
    + constructor; [|exact Ds]. exact (adv_den _ _ _ _ (adv_trans _ _ _ A1 A2) Da).
Qed.

Lemma accumulates_snoc f s acc vs rs r s1 v r' s2 :
  accumulates f s acc vs rs r s1 -> f s1 r v r' s2 ->
  accumulates f s acc (vs ++ [v]) (rs ++ [r']) r' s2.
Proof.
  induction 1 as [|s acc u vs acc' s0 rs r s1 F A IH]; intros H; cbn [app].
  - econstructor; [exact H|constructor].
  - econstructor; [exact F|]. apply IH. exact H.
Qed.

Lemma right_ok text o : op_by_arity 2 (s_ text) = Some o -> value_op o 2 ->
  forall fmt l c rs, results_right fmt text l c rs ->
  forall s vs, st_fmt s = fmt -> forallb plain l = true -> dens (st_heap s) vs l ->
  exists v0 vs0 ws w s', vs = rev vs0 ++ [v0] /\ plain c = true
    /\ accumulates (fun s acc v => applies (inner o) s [XR v; acc])
                    s (XR v0) vs0 (map XR ws) (XR w) s'
    /\ adv s s' /\ den (st_heap s') w c /\ dens (st_heap s') (rev ws) (c :: rs).
Proof.
  intros Op V fmt l c rs H.
  induction H as [a|a l b c rs H IH E Pc]; intros s vs Fm Pl Dl.
  - inversion Dl as [|va ? vs0 ? Da D0]; subst. inversion D0; subst.
    cbn in Pl. rewrite andb_true_r in Pl.
    exists va, [], [va], va, s. split; [reflexivity|]. split; [exact Pl|]. split; [constructor|].
    split; [apply adv_refl|]. split; [exact Da|]. repeat constructor. exact Da.
  - inversion Dl as [|va ? vs0 ? Da D0]; subst. cbn [forallb] in Pl. apply andb_prop in Pl.
    destruct Pl as [Pa Pl].
    destruct (IH s vs0 eq_refl Pl D0) as (v0 & us & ws & w & s1 & -> & Pb & Ac & A1 & Dw & Ds).
    rewrite <- (adv_fmt _ _ A1) in E.
    destruct (applies_value text o s1 va w a b c Op V (adv_den _ _ _ _ A1 Da) Dw Pa Pb E)
      as (w' & s2 & Ap & A2 & Dw').
    exists v0, (us ++ [va]), (ws ++ [w']), w', s2.
    split; [rewrite rev_app_distr; reflexivity|]. split; [exact Pc|]. split; [|split; [|split]].
    + rewrite map_app. cbn [map]. eapply accumulates_snoc; [exact Ac|exact Ap].
    + exact (adv_trans _ _ _ A1 A2).
    + exact Dw'.
    + rewrite rev_app_distr. cbn [rev app]. constructor; [exact Dw'|].
      exact (adv_dens _ _ _ _ A2 Ds).
Qed.

Lemma dens_last_nth h ws ps w d : dens h ws ps -> ps <> [] ->
  last (map XR ws) (XR w) = XR w -> (forall x, last (map XR ws) x = XR w) ->
  den h w (last ps d).
Proof.
  intros D Ne _ H. revert w H. induction D as [|v p vs ps Dv Ds IH]; intros w H; [congruence|].
  destruct Ds as [|v' p' vs' ps' Dv' Ds'].
  - specialize (H (XR v)). cbn in H. injection H as <-. exact Dv.
  - change (last (p :: p' :: ps') d) with (last (p' :: ps') d). apply IH; [discriminate|].
    intros x. specialize (H x). exact H.
Qed.

Theorem fold_left_values text o s e v s1 p a l rs d :
  op_by_arity 2 (s_ text) = Some o -> value_op o 2 -> o_assoc o = ALeft ->
  gives s e v s1 -> den (st_heap s1) v p -> elems p (a :: l) -> forallb plain (a :: l) = true ->
  results_left (st_fmt s) text a l rs ->
  (exists w s', gives s (folded o e) w s' /\ den (st_heap s') w (last rs d) /\ only_adds s1 s') /\
  (exists w s', gives s (scanned o e) w s' /\ den (st_heap s') w (PList rs) /\ only_adds s1 s').
Proof.
  intros Op V As G D E P R.
  destruct (fold_scan_adv text o s e v s1 p (a :: l) Op (or_introl As) G D E ltac:(discriminate))
    as (vs & s2 & A2' & D2 & FN & _ & SN).
  inversion D2 as [|va ? vs0 ? Da D0]; subst. cbn [forallb] in P. apply andb_prop in P.
  destruct P as [Pa Pl].
  assert (Fm : st_fmt s2 = st_fmt s).
  { rewrite (adv_fmt _ _ A2'). apply gives_io in G. apply G. }
  destruct (left_ok text o Op V _ _ _ _ R s2 va vs0 Fm Pa Pl Da D0) as (ws & w & s3 & Ac & A3 & Ds).
  assert (N : nested (inner o) s2 (va :: vs0) (map XR ws) (XR w) s3)
    by (apply nested_left; [exact As|exact Ac]).
  split.
  - exists w, s3. split; [|split].
    + apply FN. exists (map XR ws), (XR w), s3. split; [exact N|constructor].
    + destruct (fold_is_end _ _ _ _ _ _ N) as (_ & H & _). specialize (H As).
      apply (dens_last_nth _ ws); [exact Ds| |apply H|exact H]. inversion R; discriminate.
    + apply adv_only_adds. exact (adv_trans _ _ _ A2' A3).
  - destruct (SN ws (XR w) s3 rs N Ds) as (w' & s' & Gs & Dw & A4).
    exists w', s'. split; [exact Gs|]. split; [exact Dw|].
    apply adv_only_adds. exact (adv_trans _ _ _ (adv_trans _ _ _ A2' A3) A4).
Qed.

Theorem fold_right_values text o s e v s1 p l c rs :
  op_by_arity 2 (s_ text) = Some o -> value_op o 2 -> o_assoc o = ARight ->
  gives s e v s1 -> den (st_heap s1) v p -> elems p l -> forallb plain l = true ->
  results_right (st_fmt s) text l c rs ->
  (exists w s', gives s (folded o e) w s' /\ den (st_heap s') w c /\ only_adds s1 s') /\
  (exists w s', gives s (scanned o e) w s' /\ den (st_heap s') w (PList (c :: rs))
                /\ only_adds s1 s').
Proof.
  intros Op V As G D E P R.
  assert (Ne : l <> []) by (inversion R; discriminate).
  destruct (fold_scan_adv text o s e v s1 p l Op (or_intror As) G D E Ne)
    as (vs & s2 & A2' & D2 & FN & _ & SN).
  assert (Fm : st_fmt s2 = st_fmt s).
  { rewrite (adv_fmt _ _ A2'). apply gives_io in G. apply G. }
  destruct (right_ok text o Op V _ _ _ _ R s2 vs Fm P D2)
    as (v0 & us & ws & w & s3 & -> & Pc & Ac & A3 & Dw & Ds).
  assert (N : nested (inner o) s2 (rev us ++ [v0]) (rev (map XR ws)) (XR w) s3)
    by (apply nested_right; [exact As|exact Ac]).
  rewrite <- map_rev in N.
  split.
  - exists w, s3. split; [|split].
    + apply FN. exists (map XR (rev ws)), (XR w), s3. split; [exact N|constructor].
    + exact Dw.
    + apply adv_only_adds. exact (adv_trans _ _ _ A2' A3).
  - destruct (SN (rev ws) (XR w) s3 (c :: rs) N Ds) as (w' & s' & Gs & Dw' & A4).
    exists w', s'. split; [exact Gs|]. split; [exact Dw'|].
    apply adv_only_adds. exact (adv_trans _ _ _ (adv_trans _ _ _ A2' A3) A4).
Qed.

Theorem fold_empty text o s e v s1 p :
  op_by_arity 2 (s_ text) = Some o ->
  gives s e v s1 -> den (st_heap s1) v p -> elems p [] ->
  (exists w s', gives s (folded o e) w s' /\ only_adds s1 s'
     /\ den (st_heap s') w (default_val (o_default o))) /\
  (exists w s', gives s (scanned o e) w s' /\ den (st_heap s') w (PList []) /\ only_adds s1 s').
Proof.
  intros Op G D E.
  destruct (h_list_ok s1 v p [] D E) as (vs & s2 & A2 & D2 & _ & F & Sc).
  inversion D2; subst vs. split.
  - destruct (yields_fresh (default_val (o_default o)) s2) as (w & s3 & E3 & A3 & D3).
    exists w, s3. split; [|split].
    + apply gives_evals. exists (XR w), s3. split; [|reflexivity].
      apply (evals_folded _ _ _ _ _ _ Op G). exists 0%nat. rewrite F.
      change (o_default (op_set_fold o)) with (o_default o).
      rewrite (bind_step _ _ _ _ _ E3). reflexivity.
    + apply adv_only_adds. exact (adv_trans _ _ _ A2 A3).
    + exact D3.
  - destruct (yields_new_list [] [] s2 ltac:(constructor)) as (w & s3 & E3 & A3 & D3).
    exists w, s3. split; [|split; [exact D3|]].
    + apply gives_evals. exists (XR w), s3. split; [|reflexivity].
      apply (evals_scanned _ _ _ _ _ _ Op G). exists 0%nat. rewrite Sc.
      rewrite (bind_step _ _ _ _ _ E3). reflexivity.
    + apply adv_only_adds. exact (adv_trans _ _ _ A2 A3).
Qed.

(** ** Chains *)

Lemma comparison_value o : comparison o -> value_op o 2.
Proof.
  assert (C : forallb (fun a => negb (assoc_eqb (o_assoc a) AChain && Nat.eqb (o_arity a) 2)
      || str_eqb (o_text a) (s_ "~=") || (f_rvals (o_flags a) && value_fun (o_fun a) 2)) all_ops = true)
    by (vm_compute; reflexivity).
  intros (text & Op & As & Ne). destruct (table_modifiers _ _ _ Op) as (H1 & H2 & H3 & H4).
  apply in_table in Op. destruct Op as (I & Ar & Tx). rewrite forallb_forall in C.
  specialize (C o I). cbv beta in C. rewrite As, Ar, Tx in C. cbn [assoc_eqb Nat.eqb andb negb orb] in C.
  destruct (str_eqb text (s_ "~=")) eqn:Q; [apply str_eqb_eq in Q; contradiction|]. cbn [orb] in C.
  apply andb_prop in C. destruct C as [C1 C2]. constructor; assumption.
Qed.

(** The operands of CHAIN after preparation. *)
Fixpoint linked (os : list oper) (vs : list hval) : list xval :=
  match os, vs with
  | o :: os, v :: vs => XO o :: XR v :: linked os vs
  | _, _ => []
  end.

Lemma steady_links rest v : steady (fun R => chain_links R v rest).
Proof. intros R R' H. apply (r_chain_links _ le_fuel_closed _ _ H). Qed.

Lemma chain_ok fmt a links r : chain_result fmt a links r ->
  forall s va vs, st_fmt s = fmt -> Forall (fun o => value_op o 2) (map fst links) ->
    den (st_heap s) va a -> dens (st_heap s) vs (map snd links) ->
  exists u s', ends (fun R => chain_links R va (linked (map fst links) vs)) s (XR u) s'
    /\ adv s s' /\ den (st_heap s') u r.
Proof.
  induction 1 as [a o b links r E C|a o b r E|a o b links r r' E C H IH];
    intros s va vs Fm Vs Da Ds; cbn [map fst snd] in *;
    inversion Ds as [|vb ? vs0 ? Db D0]; subst; inversion Vs as [|? ? Vo Vr]; subst;
    cbn [linked];
    destruct (op_values o [va; vb] [a; b] s r Vo ltac:(repeat constructor; assumption) E)
      as (n & u & s1 & E1 & A1 & D1); cbn [map arg_of] in E1.
  - exists u, s1. split; [|auto]. exists n. cbn [chain_links].
    rewrite (bind_step _ _ _ _ _ E1).
    destruct (linked (map fst links) vs0) as [|x rest] eqn:L; [reflexivity|].
    cbn [truth_x]. rewrite (bind_step _ _ _ _ _ (truth_ok _ _ _ D1)).
    apply counts_bool in C. rewrite C. reflexivity.
  - exists u, s1. split; [|auto]. exists n. cbn [chain_links].
    rewrite (bind_step _ _ _ _ _ E1). reflexivity.
  - destruct (IH s1 vb vs0 (adv_fmt _ _ A1) Vr (adv_den _ _ _ _ A1 Db) (adv_dens _ _ _ _ A1 D0))
      as (w & s2 & [m E2] & A2 & D2).
    exists w, s2. split; [|split; [exact (adv_trans _ _ _ A1 A2)|exact D2]].
    exists (max n m). cbn [chain_links].
    rewrite (bind_step _ _ _ _ _
      (more_ends (fun R => i_op R o [AVal (XR va); AVal (XR vb)]) n (max n m) _ _ _
         (steady_op o _) ltac:(lia) E1)).
    assert (L : exists x rest, linked (map fst links) vs0 = x :: rest).
    { destruct H; cbn [map fst snd linked] in *; inversion D0; subst; cbn [linked]; eauto. }
    destruct L as (x & rest & L). rewrite L.
    cbn [truth_x]. rewrite (bind_step _ _ _ _ _ (truth_ok _ _ _ D1)).
    apply counts_bool in C. rewrite C. rewrite <- L.
    exact (more_ends _ m (max n m) _ _ _ (steady_links _ _) ltac:(lia) E2).
Qed.

Lemma eval_args xs : forall R s, mmap (eval_arg R) (map AVal xs) s = Ok xs s.
Proof.
  induction xs as [|x xs IH]; intros R s; [reflexivity|]. cbn [map mmap].
  unfold mbind. cbn [eval_arg]. unfold mret at 1. rewrite IH. reflexivity.
Qed.

Lemma eval_chain R args x y z xs s s' :
  mmap (prepare R (o_flags op_chain)) args s
    = Ok (map (fun x => (AVal x, false)) (x :: y :: z :: xs)) s' ->
  eval_op R op_chain args s = catch_type (CHAIN R (x :: y :: z :: xs)) s'.
Proof.
  intros E. unfold eval_op. cbn [op_chain o_assign o_map o_fold o_scan mkop].
  rewrite (bind_step _ _ _ _ _ E).
  assert (B : existsb snd (map (fun x => (AVal x, false)) (x :: y :: z :: xs)) = false).
  { clear. induction (x :: y :: z :: xs) as [|a l IH]; [reflexivity|]. exact IH. }
  rewrite B. rewrite map_map. cbn [fst].
  change (map (fun x => AVal x) (x :: y :: z :: xs)) with (map AVal (x :: y :: z :: xs)).
  unfold catch_type.
  assert (Q : apply_x R op_chain (map AVal (x :: y :: z :: xs)) s' = CHAIN R (x :: y :: z :: xs) s').
  { cbn [map apply_x]. unfold call_fun. cbn [op_chain o_fun mkop].
    change (AVal x :: AVal y :: AVal z :: map AVal xs) with (map AVal (x :: y :: z :: xs)).
    rewrite (bind_step _ _ _ _ _ (eval_args (x :: y :: z :: xs) R s')). reflexivity. }
  rewrite Q. reflexivity.
Qed.

Lemma linked_odd os vs : length os = length vs -> Nat.even (length (linked os vs)) = true.
Proof.
  revert vs. induction os as [|o os IH]; intros [|v vs] L; try discriminate; [reflexivity|].
  cbn [linked length]. apply IH. injection L as L. exact L.
Qed.

Lemma chain_value R v os vs s : length os = length vs ->
  CHAIN R (XR v :: linked os vs) s = chain_links R v (linked os vs) s.
Proof.
  intros L. unfold CHAIN. cbn [length]. rewrite Nat.even_succ, <- Nat.negb_even, linked_odd by exact L.
  reflexivity.
Qed.

Lemma prepare_links R links : forall s vs s',
  mmap (rval_tree R) (map snd links) s = Ok vs s' -> Forall (fun v => h_block v = false) vs ->
  mmap (prepare R (o_flags op_chain))
       (map ATree (flat_map (fun l => [TOpr (fst l); snd l]) links)) s
  = Ok (map (fun x => (AVal x, false)) (linked (map fst links) vs)) s'.
Proof.
  induction links as [|[o e] links IH]; intros s vs s' E B; cbn [map flat_map Datatypes.app mmap fst snd] in *.
  - injection E as <- <-. reflexivity.
  - bind_inv E. bind_inv E. injection E as <- <-. inversion B as [|? ? Ba Bs]; subst.
    cbn [mmap linked map].
    rewrite (bind_step (prepare R (o_flags op_chain) (ATree (TOpr o))) _ s (AVal (XO o), false) s eq_refl).
    pose proof (prepare_tree R (o_flags op_chain) e s a s0 eq_refl E0) as P.
    rewrite Ba, andb_false_r in P. unfold mbind at 1.
    rewrite (bind_step _ _ _ _ _ P).
    rewrite (bind_step _ _ _ _ _ (IH _ _ _ E1 Bs)). reflexivity.
Qed.

Theorem chain_evals s e0 links v0 vs s1 p0 ps r :
  links <> [] -> Forall comparison (map fst links) ->
  operands s (e0 :: map snd links) (v0 :: vs) s1 ->
  dens (st_heap s1) (v0 :: vs) (p0 :: ps) ->
  Forall (fun p => is_block p = false) (p0 :: ps) ->
  chain_result (st_fmt s) p0 (combine (map fst links) ps) r ->
  exists w s', evals s (chain_tree e0 links) (XR w) s' /\ den (st_heap s') w r /\ only_adds s1 s'.
Proof.
  intros Ne Cs Os Ds Bs H.
  pose proof (operands_length _ _ _ _ Os) as Len.
  cbn [length] in Len. injection Len as Len. rewrite map_length in Len.
  pose proof (dens_length _ _ _ Ds) as Len2. cbn [length] in Len2. injection Len2 as Len2.
  inversion Ds as [|? ? ? ? D0 Dr]; subst.
  assert (F1 : map fst (combine (map fst links) ps) = map fst links).
  { assert (L : length (map fst links) = length ps) by (rewrite map_length; lia).
    revert L. generalize (map fst links) ps. clear.
    induction l as [|a l IH]; intros [|b ps] L; try discriminate; [reflexivity|].
    cbn. rewrite IH by (injection L as L; exact L). reflexivity. }
  assert (F2 : map snd (combine (map fst links) ps) = ps).
  { assert (L : length (map fst links) = length ps) by (rewrite map_length; lia).
    revert L. generalize (map fst links) ps. clear.
    induction l as [|a l IH]; intros [|b ps] L; try discriminate; [reflexivity|].
    cbn. rewrite IH by (injection L as L; exact L). reflexivity. }
  destruct (chain_ok _ _ _ _ H s1 v0 vs) as (u & s2 & [m E2] & A2 & D2).
  - exact (operands_fmt _ _ _ _ Os).
  - rewrite F1. apply Forall_forall. intros o I. apply comparison_value.
    rewrite Forall_forall in Cs. exact (Cs o I).
  - exact D0.
  - rewrite F2. exact Dr.
  - rewrite F1 in E2. destruct (operands_fuel _ _ _ _ Os) as [k K].
    exists u, s2. split; [|split; [exact D2|apply adv_only_adds; exact A2]].
    unfold chain_tree. apply evals_app. exists (max m k).
    specialize (K (max m k) ltac:(lia)). cbn [mmap] in K. bind_inv K. bind_inv K.
    injection K as -> -> ->.
    assert (Bv : Forall (fun v => h_block v = false) (v0 :: vs)).
    { clear -Ds Bs. induction Ds; [constructor|]. inversion Bs; subst. constructor; [|auto].
      erewrite den_block by eassumption. assumption. }
    inversion Bv as [|? ? B0 Bv']; subst.
    destruct links as [|[o e1] links]; [congruence|].
    destruct vs as [|v1 vs]; [discriminate|]. cbn [map fst snd linked] in *.
    rewrite (eval_chain _ _ (XR v0) (XO o) (XR v1) (linked (map fst links) vs) s s1).
    + apply (proj2 (catch_ok _ _ _ _)).
      change (XO o :: XR v1 :: linked (map fst links) vs)
        with (linked (o :: map fst links) (v1 :: vs)).
      rewrite chain_value by (cbn; rewrite map_length; cbn in Len; lia).
      exact (more_ends _ m (max m k) _ _ _ (steady_links _ _) ltac:(lia) E2).
    + cbn [map mmap].
      pose proof (prepare_tree _ (o_flags op_chain) _ _ _ _ eq_refl E) as P.
      rewrite B0, andb_false_r in P. rewrite (bind_step _ _ _ _ _ P).
      pose proof (prepare_links _ ((o, e1) :: links) _ _ _ E0 Bv') as Q.
      rewrite (bind_step _ _ _ _ _ Q). reflexivity.
Qed.
Theorem chain_gives s e0 links v0 vs s1 p0 ps r :
  links <> [] -> Forall comparison (map fst links) ->
  operands s (e0 :: map snd links) (v0 :: vs) s1 ->
  dens (st_heap s1) (v0 :: vs) (p0 :: ps) ->
  Forall (fun p => is_block p = false) (p0 :: ps) ->
  chain_result (st_fmt s) p0 (combine (map fst links) ps) r ->
  exists w s', gives s (chain_tree e0 links) w s' /\ den (st_heap s') w r /\ only_adds s1 s'.
Proof.
  intros Ne Cs Os Ds Bs H. destruct (chain_evals _ _ _ _ _ _ _ _ _ Ne Cs Os Ds Bs H) as (w & s' & E & D & A).
  exists w, s'. split; [|auto]. apply gives_evals. exists (XR w), s'. split; [exact E|reflexivity].
Qed.

Theorem chain_conjunction fmt a links r :
  chain_result fmt a links r -> counts r true <-> all_links fmt a links.
Proof.
  assert (NC : forall p, counts p true -> counts p false -> False).
  { intros p H1 H2. apply counts_bool in H1. apply counts_bool in H2. congruence. }
  induction 1 as [a o b links r E C|a o b r E|a o b links r r' E C H IH].
  - split; [intros C'; destruct (NC _ C' C)|]. intros A.
    inversion A as [|? ? ? ? r0 E0 C0 A0]; subst. rewrite E in E0. injection E0 as <-.
    destruct (NC _ C0 C).
  - split; [intros C; econstructor; [exact E|exact C|constructor]|].
    intros A. inversion A as [|? ? ? ? r0 E0 C0 A0]; subst. rewrite E in E0. injection E0 as <-.
    exact C0.
  - rewrite IH. split; [intros A; econstructor; eassumption|].
    intros A. inversion A; subst. assumption.
Qed.

(** ** Folding and scanning with a comparison *)
Lemma chain_inner fmt o : forall a l r, forallb plain (a :: l) = true ->
  chain_result fmt a (same_links o l) r -> chain_result fmt a (same_links (inner o) l) r.
Proof.
  assert (Q : forall a b, plain a = true -> plain b = true ->
            apply_op fmt (inner o) [a; b] = apply_op fmt o [a; b]).
  { intros a b Pa Pb. unfold apply_op. apply apply_inner. cbn. rewrite Pa, Pb. reflexivity. }
  intros a l. revert a. induction l as [|b l IH]; intros a r P H; [inversion H|].
  cbn [forallb] in P. apply andb_prop in P. destruct P as [Pa P].
  pose proof P as Pl. apply andb_prop in P. destruct P as [Pb _].
  unfold same_links in *. cbn [map] in *.
  inversion H as [? ? ? ? ? E C|? ? ? ? E L|? ? ? ? ? ? E C H']; subst.
  - apply chain_false; [rewrite Q by assumption; exact E|exact C].
  - destruct l; [|discriminate]. apply chain_last. rewrite Q by assumption. exact E.
  - eapply chain_true; [rewrite Q by assumption; exact E|exact C|].
    apply IH; [exact Pl|exact H'].
Qed.

Lemma prepare_same R o vs s : Forall (fun v => h_block v = false) vs ->
  mmap (prepare R (o_flags op_chain)) (links o vs) s
  = Ok (map (fun x => (AVal x, false)) (linked (map (fun _ => o) vs) vs)) s.
Proof.
  induction vs as [|v vs IH]; intros B; [reflexivity|]. inversion B as [|? ? Bv Bs]; subst.
  unfold links in *. cbn [flat_map Datatypes.app map linked mmap].
  rewrite (bind_step (prepare R (o_flags op_chain) (ATree (TOpr o))) _ s (AVal (XO o), false) s eq_refl).
  pose proof (prepare_value R (o_flags op_chain) v s eq_refl) as P.
  rewrite Bv, andb_false_r in P. unfold arg_of in P. unfold mbind at 1.
  rewrite (bind_step _ _ _ _ _ P). rewrite (bind_step _ _ _ _ _ (IH Bs)). reflexivity.
Qed.

Lemma dens_blocks h vs l : dens h vs l -> forallb plain l = true ->
  Forall (fun v => h_block v = false) vs.
Proof.
  induction 1 as [|v p vs ps D Ds IH]; intros P; [constructor|]. cbn [forallb] in P.
  apply andb_prop in P. destruct P as [Pp P]. constructor; [|exact (IH P)].
  rewrite (den_block _ _ _ D). apply plain_block. exact Pp.
Qed.

Lemma map_fst_pair (o : oper) (l : list pval) : map fst (same_links o l) = map (fun _ => o) l.
Proof. unfold same_links. rewrite map_map. reflexivity. Qed.
Lemma map_snd_pair (o : oper) (l : list pval) : map snd (same_links o l) = l.
Proof. unfold same_links. rewrite map_map. apply map_id. Qed.
Lemma map_const_length {A B C} (c : C) (l : list A) (l' : list B) :
  length l = length l' -> map (fun _ => c) l = map (fun _ => c) l'.
Proof.
  revert l'. induction l as [|a l IH]; intros [|b l'] H; try discriminate; [reflexivity|].
  cbn. f_equal. apply IH. injection H as H. exact H.
Qed.

Lemma chain_applies o s va a vs l r :
  value_op o 2 -> den (st_heap s) va a -> dens (st_heap s) vs l -> l <> [] ->
  forallb plain (a :: l) = true ->
  chain_result (st_fmt s) a (same_links o l) r ->
  exists w s', ends (fun R => i_op R op_chain (AVal (XR va) :: links o vs)) s (XR w) s'
    /\ adv s s' /\ den (st_heap s') w r.
Proof.
  intros V Da Ds Ne P H. pose proof (dens_length _ _ _ Ds) as Len.
  cbn [forallb] in P. apply andb_prop in P. destruct P as [Pa Pl].
  destruct (chain_ok _ _ _ _ H s va vs eq_refl) as (u & s2 & [m E2] & A2 & D2).
  - rewrite map_fst_pair. apply Forall_forall. intros x I. apply in_map_iff in I.
    destruct I as (y & <- & _). exact V.
  - exact Da.
  - rewrite map_snd_pair. exact Ds.
  - rewrite map_fst_pair, (map_const_length o l vs) in E2 by (symmetry; exact Len).
    exists u, s2. split; [|auto]. exists (S m).
    change (i_op (run (S m)) op_chain (AVal (XR va) :: links o vs) s)
      with (eval_op (run m) op_chain (AVal (XR va) :: links o vs) s).
    destruct vs as [|v1 vs]; [inversion Ds; congruence|]. cbn [map linked] in E2.
    rewrite (eval_chain _ _ (XR va) (XO o) (XR v1) (linked (map (fun _ => o) vs) vs) s s).
    + apply (proj2 (catch_ok _ _ _ _)).
      change (XO o :: XR v1 :: linked (map (fun _ => o) vs) vs)
        with (linked (map (fun _ => o) (v1 :: vs)) (v1 :: vs)).
      rewrite chain_value by (apply map_length). exact E2.
    + cbn [map mmap].
      pose proof (prepare_value (run m) (o_flags op_chain) va s eq_refl) as Q.
      rewrite (den_block _ _ _ Da), (plain_block _ Pa), andb_false_r in Q. unfold arg_of in Q.
      rewrite (bind_step _ _ _ _ _ Q).
      rewrite (bind_step _ _ _ _ _ (prepare_same (run m) o (v1 :: vs) s (dens_blocks _ _ _ Ds Pl))).
      reflexivity.
Qed.

Lemma dens_firstn h n : forall vs l, dens h vs l -> dens h (firstn n vs) (firstn n l).
Proof.
  induction n as [|n IH]; intros vs l D; [constructor|].
  destruct D; [constructor|]. cbn [firstn]. constructor; [assumption|]. apply IH. assumption.
Qed.
Lemma forallb_firstn {A} (f : A -> bool) n : forall l, forallb f l = true -> forallb f (firstn n l) = true.
Proof.
  induction n as [|n IH]; intros [|a l] H; try reflexivity. cbn in *.
  apply andb_prop in H. destruct H as [-> H]. exact (IH _ H).
Qed.

Lemma prefixes_ok o : value_op o 2 -> forall a l, l <> [] -> forallb plain (a :: l) = true ->
  forall fmt ns rs, Forall (fun n => (1 <= n)%nat) ns ->
    Forall2 (fun n r => chain_result fmt a (same_links o (firstn n l)) r) ns rs ->
  forall s va vs, st_fmt s = fmt -> den (st_heap s) va a -> dens (st_heap s) vs l ->
  exists ws s', ends (fun R => mmap (fun n => i_op R op_chain (AVal (XR va) :: links o (firstn n vs))) ns)
                     s (map XR ws) s'
    /\ adv s s' /\ dens (st_heap s') ws rs.
Proof.
  intros V a l Ne P fmt ns rs Ge H.
  induction H as [|n r ns rs Hn Hs IH]; intros s va vs Fm Da Ds.
  - exists [], s. split; [exists 0%nat; reflexivity|]. split; [apply adv_refl|constructor].
  - inversion Ge as [|? ? G1 Gs]; subst.
    destruct (chain_applies o s va a (firstn n vs) (firstn n l) r) as (w & s1 & [m E1] & A1 & D1).
    + exact V.
    + exact Da.
    + apply dens_firstn. exact Ds.
    + destruct n as [|n]; [lia|]. destruct l; [congruence|]. discriminate.
    + cbn [forallb] in *. apply andb_prop in P. destruct P as [-> P].
      apply forallb_firstn. exact P.
    + exact Hn.
    + destruct (IH Gs s1 va vs (adv_fmt _ _ A1) (adv_den _ _ _ _ A1 Da) (adv_dens _ _ _ _ A1 Ds))
        as (ws & s2 & [k E2] & A2 & D2).
      exists (w :: ws), s2. split; [|split].
      * exists (max m k). cbn [mmap map].
        rewrite (bind_step _ _ _ _ _
          (more_ends _ m (max m k) _ _ _ (steady_op op_chain _) ltac:(lia) E1)).
        assert (SM : steady (fun R => mmap (fun n => i_op R op_chain (AVal (XR va) :: links o (firstn n vs))) ns)).
        { intros R R' Rel. apply (r_mmap _ le_fuel_closed). intros j. apply (re_op _ _ _ Rel). }
        rewrite (bind_step _ _ _ _ _ (more_ends _ k (max m k) _ _ _ SM ltac:(lia) E2)).
        reflexivity.
      * exact (adv_trans _ _ _ A1 A2).
      * constructor; [exact (adv_den _ _ _ _ A2 D1)|exact D2].
Qed.

Theorem fold_comparison text o s e v s1 p a l :
  op_by_arity 2 (s_ text) = Some o -> o_assoc o = AChain -> s_ text <> s_ "~=" ->
  nth_error (st_heap s1) loc_one = Some (OS (s_ "1")) ->
  gives s e v s1 -> den (st_heap s1) v p -> elems p (a :: l) -> forallb plain (a :: l) = true ->
  (l = [] ->
   exists w s', gives s (folded o e) w s' /\ den (st_heap s') w (PScal (s_ "1")) /\ only_adds s1 s') /\
  (forall r, chain_result (st_fmt s) a (same_links o l) r ->
   exists w s', gives s (folded o e) w s' /\ den (st_heap s') w r /\ only_adds s1 s') /\
  (forall rs,
   Forall2 (fun n r => chain_result (st_fmt s) a (same_links o (firstn n l)) r)
           (seq 1 (length l)) rs ->
   exists w s', gives s (scanned o e) w s'
     /\ den (st_heap s') w (PList (PScal (s_ "1") :: rs)) /\ only_adds s1 s').
Proof.
  intros Op As Ne One G D E P.
  assert (V : value_op (inner o) 2).
  { apply value_op_inner, comparison_value. exists (s_ text). auto. }
  destruct (h_list_ok s1 v p (a :: l) D E) as (vs & s2 & A2 & D2 & _ & F & Sc).
  inversion D2 as [|va ? vs0 ? Da D0]; subst.
  assert (Fm : st_fmt s2 = st_fmt s).
  { rewrite (adv_fmt _ _ A2). apply gives_io in G. apply G. }
  assert (One2 : nth_error (st_heap s2) loc_one = Some (OS (s_ "1"))) by exact (adv_nth _ _ _ _ A2 One).
  assert (FF : forall R, fold_rest (op_set_fold o) R v s1 = fold_items R (inner o) (va :: vs0) s2).
  { intros R. rewrite F, (inner_fold _ _ _ Op). reflexivity. }
  assert (SS : forall R, scan_rest (op_set_scan o) R v s1
                = (rs <- scan_items R (inner o) (va :: vs0);; scan_end rs) s2).
  { intros R. rewrite Sc, (inner_scan _ _ _ Op). reflexivity. }
  split; [|split].
  - intros ->. inversion D0; subst. exists scalar_one, s2.
    split; [|split; [constructor; exact One2|apply adv_only_adds; exact A2]].
    apply gives_evals. exists (XR scalar_one), s2. split; [|reflexivity].
    apply (evals_folded _ _ _ _ _ _ Op G). exists 0%nat. rewrite FF. unfold fold_items.
    cbn [inner o_assoc]. rewrite As. reflexivity.
  - intros r H. rewrite <- Fm in H. apply (chain_inner _ _ _ _ _ P) in H.
    destruct l as [|b l]; [inversion H|].
    destruct (chain_applies (inner o) s2 va a vs0 (b :: l) r V Da D0 ltac:(discriminate) P H)
      as (w & s3 & [n E3] & A3 & D3).
    exists w, s3. split; [|split; [exact D3|apply adv_only_adds; exact (adv_trans _ _ _ A2 A3)]].
    apply gives_evals. exists (XR w), s3. split; [|reflexivity].
    apply (evals_folded _ _ _ _ _ _ Op G). exists n. rewrite FF. unfold fold_items.
    cbn [inner o_assoc]. rewrite As. destruct vs0 as [|vb vs0]; [inversion D0|]. exact E3.
  - intros rs H. rewrite <- Fm in H.
    assert (Ex : exists ws s3,
      ends (fun R => mmap (fun n => i_op R op_chain (AVal (XR va) :: links (inner o) (firstn n vs0)))
                          (seq 1 (length vs0))) s2 (map XR ws) s3
      /\ adv s2 s3 /\ dens (st_heap s3) ws rs).
    { rewrite (dens_length _ _ _ D0).
      destruct l as [|b l].
      - inversion H; subst. exists [], s2. split; [exists 0%nat; reflexivity|].
        split; [apply adv_refl|constructor].
      - apply (prefixes_ok (inner o) V a (b :: l) ltac:(discriminate) P (st_fmt s2)).
        + apply Forall_forall. intros j I. apply in_seq in I. lia.
        + assert (Q : forall ns rs, Forall2 (fun n r => chain_result (st_fmt s2) a
                    (same_links o (firstn n (b :: l))) r) ns rs ->
             Forall2 (fun n r => chain_result (st_fmt s2) a
                    (same_links (inner o) (firstn n (b :: l))) r) ns rs).
          { clear -P. intros ns rs Q. induction Q as [|n r ns rs' Hn Hs IH]; constructor; [|assumption].
            apply chain_inner; [|exact Hn]. cbn [forallb] in P |- *. apply andb_prop in P.
            destruct P as [-> P]. apply (forallb_firstn plain n (b :: l)). exact P. }
          exact (Q _ _ H).
        + reflexivity.
        + exact Da.
        + exact D0. }
    destruct Ex as (ws & s3 & [n E3] & A3 & D3).
    assert (D4 : dens (st_heap s3) (scalar_one :: ws) (PScal (s_ "1") :: rs)).
    { constructor; [constructor; exact (adv_nth _ _ _ _ A3 One2)|exact D3]. }
    destruct (scan_end_ok _ _ _ D4) as (w & s4 & E4 & D5 & A4).
    exists w, s4. split; [|split; [exact D5|]].
    + apply gives_evals. exists (XR w), s4. split; [|reflexivity].
      apply (evals_scanned _ _ _ _ _ _ Op G). exists n. rewrite SS. unfold scan_items.
      cbn [inner o_assoc]. rewrite As.
      rewrite bind_assoc. rewrite (bind_step _ _ _ _ _ E3). exact E4.
    + apply adv_only_adds. exact (adv_trans _ _ _ (adv_trans _ _ _ A2 A3) A4).
Qed.
