(** * What statements do: proofs *)

From Coq Require Import String List NArith ZArith Bool Arith Lia.
From Verif Require Import PyStr PyRe PyNum Tokens Scan OpFun OpTable Parse Unparse
                          PTypes Ops OpsSeq Apply Spec StrFacts PFacts RunOp
                          Heap Exec SpecHeap HeapProof ExecRel ExecInv EvalProof
                          SpecScan SpecRun SpecVars VarProof CtlProof PureProof LoopProof SpecMain SpecMap MapProof
                          SpecAlias FilterProof SpecMeta MetaProof SpecLam LamProof SpecRec RecProof SpecAug AugProof
                          StandProof SpecFun FunProof SpecImp.
From Verif Require MainProof.
Import ListNotations.
Local Open Scope string_scope.
Local Open Scope list_scope.

Scheme runs_ind0 := Minimality for evaluates Sort Prop
with runs_ind1 := Minimality for runs Sort Prop
with runs_ind2 := Minimality for runs_all Sort Prop
with runs_ind3 := Minimality for runs_times Sort Prop
with runs_ind4 := Minimality for runs_each Sort Prop
with runs_ind5 := Minimality for runs_until Sort Prop
with runs_ind6 := Minimality for invokes Sort Prop
with runs_ind7 := Minimality for invokes_each Sort Prop
with runs_ind8 := Minimality for evaluates_all Sort Prop.
Combined Scheme runs_mind from runs_ind0, runs_ind1, runs_ind2, runs_ind3, runs_ind4, runs_ind5, runs_ind6, runs_ind7, runs_ind8.

(** ** What stays when statements are executed *)
Definition goes (out : str) (s s' : state) : Prop :=
  (st_fmt s' = st_fmt s /\ st_tao s' = st_tao s /\ st_in s' = st_in s /\ st_rand s' = st_rand s
   /\ st_depth s' = st_depth s)
  /\ st_out s' = st_out s ++ out
  /\ (exists t, st_heap s' = st_heap s ++ t)
  /\ map sc_fun (st_scopes s') = map sc_fun (st_scopes s)
  /\ tl (st_scopes s') = tl (st_scopes s).
Lemma goes_refl s : goes [] s s.
Proof.
  split; [auto|]. split; [symmetry; apply app_nil_r|].
  split; [exists []; symmetry; apply app_nil_r|auto].
Qed.
Lemma goes_trans a b s1 s2 s3 : goes a s1 s2 -> goes b s2 s3 -> goes (a ++ b) s1 s3.
Proof.
  intros ((A1 & A2 & A3 & A4 & A5) & A6 & [t A7] & A8 & A9) ((B1 & B2 & B3 & B4 & B5) & B6 & [u B7] & B8 & B9).
  split; [intuition congruence|]. split; [rewrite B6, A6; symmetry; apply app_assoc|].
  split; [exists (t ++ u); rewrite B7, A7; symmetry; apply app_assoc|]. split; congruence.
Qed.
Lemma goes_then b s1 s2 s3 : goes [] s1 s2 -> goes b s2 s3 -> goes b s1 s3.
Proof. intros A B. exact (goes_trans [] b _ _ _ A B). Qed.
Lemma goes_after a s1 s2 s3 : goes a s1 s2 -> goes [] s2 s3 -> goes a s1 s3.
Proof. intros A B. rewrite <- (app_nil_r a). eapply goes_trans; eassumption. Qed.
Lemma goes_adds s s' : only_adds s s' -> goes [] s s'.
Proof.
  intros (A1 & A2 & A3 & A4 & A5 & A6 & A7 & A8 & A9 & A10 & A11 & A12 & A13).
  split; [auto|]. split; [rewrite A7; symmetry; apply app_nil_r|].
  split; [exact A12|]. rewrite A2. auto.
Qed.
Lemma goes_adv s s' : adv s s' -> goes [] s s'.
Proof. intros A. apply goes_adds. apply adv_only_adds. exact A. Qed.
Lemma goes_rebound x v s s' : rebound x v s s' -> goes [] s s'.
Proof.
  intros R. destruct R as [sc rest L E|L]; unfold goes; cbn; rewrite ?app_nil_r.
  - rewrite E. repeat split; auto. exists []. symmetry. apply app_nil_r.
  - repeat split; auto. exists []. symmetry. apply app_nil_r.
Qed.
Lemma goes_printed out s : goes out s (printed out s).
Proof. unfold goes. cbn. repeat split; auto. exists []. symmetry. apply app_nil_r. Qed.
Lemma goes_den out s s' v p : goes out s s' -> den (st_heap s) v p -> den (st_heap s') v p.
Proof. intros (_ & _ & [t E] & _) D. rewrite E. apply den_app. exact D. Qed.
Lemma goes_dens out s s' v p : goes out s s' -> dens (st_heap s) v p -> dens (st_heap s') v p.
Proof. intros (_ & _ & [t E] & _) D. rewrite E. apply dens_app. exact D. Qed.
Lemma goes_dent out s s' e r : goes out s s' -> dent (st_heap s) e r -> dent (st_heap s') e r.
Proof.
  intros G D.
  assert (X : den (st_heap s) (HBlock [] e) (PBlock [] r)) by (constructor; [constructor|exact D]).
  apply (goes_den _ _ _ _ _ G) in X. inversion X; subst. assumption.
Qed.
Lemma goes_dents out s s' es rs : goes out s s' -> dents (st_heap s) es rs -> dents (st_heap s') es rs.
Proof.
  intros A D. apply Forall2_dents. apply dents_Forall2 in D.
  eapply Forall2_imp; [|exact D]. intros a b. eapply goes_dent. exact A.
Qed.

(** ** The values of the variables *)
Definition here (w : setting) (F : pval) (L : N -> pval) (s : state) : Prop :=
  frame w F L s /\ exists l, history s l.
Lemma history_adds s s1 l : only_adds s s1 -> history s l -> history s1 l.
Proof.
  intros A (H1 & H2 & H3). split; [|split]; eapply adds_held; eassumption.
Qed.
Lemma here_adds w F L s s1 : here w F L s -> only_adds s s1 -> here w F L s1.
Proof.
  intros [Fr [l H]] A. split; [eapply frame_adds; eassumption|]. exists l. eapply history_adds; eassumption.
Qed.
Lemma sets_ordinary x p w L w' L' s : sets x p w L w' L' -> ordinary s x.
Proof.
  intros [N|c I ->]; [|apply arg_ordinary; exact I].
  destruct N as (N & Q & R & P & _). split; [exact N|]. split; [exact Q|]. split; [exact R|].
  intros E. contradiction.
Qed.
Lemma letter_local c : In c (s_ "abcdefg") -> is_local [c].
Proof. intros I. left. exists c. auto. Qed.
Lemma hist_local x : In x [hist1; hist2; hist3] -> is_local x.
Proof. intros [<-|[<-|[<-|[]]]]; right; [exists 0%nat|exists 1%nat|exists 2%nat]; reflexivity. Qed.
Lemma hist_letter x c : In x [hist1; hist2; hist3] -> x <> [c].
Proof. intros [<-|[<-|[<-|[]]]]; discriminate. Qed.
Lemma sets_hist x p w L w' L' y : sets x p w L w' L' -> In y [hist1; hist2; hist3] -> y <> x.
Proof.
  intros [(_ & _ & _ & _ & N)|c I ->] H.
  - intros ->. apply N. apply hist_local. exact H.
  - apply hist_letter. exact H.
Qed.
Lemma here_rebound w F L x p v w' L' s s' :
  here w F L s -> sets x p w L w' L' -> den (st_heap s) v p -> rebound x v s s' -> here w' F L' s'.
Proof.
  intros [[(Mf & Mv & Mo) Lc (f & Rn & Df)] (l & H1 & H2 & H3)] Se D R. split; [split|].
  - split; [|split].
    + destruct Se; destruct R; exact Mf.
    + destruct Se as [N|c I ->]; cbn [know w_var].
      * intros y q [[-> ->]|[Ne W]].
        -- split; [|split; [apply N|eapply rebound_var; eassumption]].
           destruct N as (N & Q & Rr & P & _). split; [exact N|]. split; [exact Q|]. split; [exact Rr|].
           intros E. contradiction.
        -- destruct (Mv y q W) as (O & Nl & V). split; [eapply rebound_ordinary; eassumption|].
           split; [exact Nl|]. eapply rebound_other_var; eassumption.
      * intros y q W. destruct (Mv y q W) as (O & Nl & V). split; [eapply rebound_ordinary; eassumption|].
        split; [exact Nl|]. eapply rebound_other_var; [exact R| |exact V].
        intros ->. apply Nl. apply letter_local. exact I.
    + intros One. unfold has_one. rewrite (rebound_heap _ _ _ _ R). apply Mo. destruct Se; exact One.
  - destruct Se as [N|c I ->].
    + intros d Id. eapply rebound_other_var; [exact R| |exact (Lc d Id)].
      intros <-. apply N. apply letter_local. exact Id.
    + intros d Id. unfold put. destruct (N.eqb_spec d c) as [->|Nd].
      * eapply rebound_var; eassumption.
      * eapply rebound_other_var; [exact R| |exact (Lc d Id)]. congruence.
  - exists f. split; [|rewrite (rebound_heap _ _ _ _ R); exact Df].
    destruct Rn as (sc & rest & Es & Ef). destruct R as [sc0 rest0 Lo E|Lo].
    + rewrite Es in E. injection E as <- <-. eexists _, rest. split; [reflexivity|exact Ef].
    + exists sc, rest. auto.
  - exists l. split; [|split]; (eapply held_other; [exact R| |eassumption]);
      (eapply sets_hist; [exact Se|cbn; tauto]).
Qed.
Lemma here_scopes w F L s : here w F L s -> st_scopes s <> [].
Proof. intros [[_ _ (f & (sc & rest & E & _) & _)] _]. rewrite E. discriminate. Qed.
(** After a call. *)
Lemma here_call w F L out w' s s' :
  here w F L s -> goes out s s' -> st_scopes s' = st_scopes s -> models s' w' -> here w' F L s'.
Proof.
  intros [[_ Lc (f & Rn & Df)] (l & H1 & H2 & H3)] G Sc M.
  assert (B : forall x o, is_local x -> binding s x o -> binding s' x o).
  { intros x o Lx B. inversion B as [sc rest ? Es|]; subst; [|contradiction].
    apply (binding_local s' x sc rest Lx). rewrite Sc. exact Es. }
  assert (Hd : forall x o, is_local x -> held s x o -> held s' x o).
  { intros x [p|] Lx; cbn [held]; [|apply B; exact Lx].
    intros (v & Bv & D). exists v. split; [apply B; assumption|eapply goes_den; eassumption]. }
  split; [split|].
  - exact M.
  - intros c I. destruct (Lc c I) as (o & Bo & D). exists o.
    split; [apply B; [apply letter_local; exact I|exact Bo]|].
    destruct o; [eapply goes_den; eassumption|exact D].
  - exists f. split; [|eapply goes_den; eassumption]. destruct Rn as (sc & rest & Es & Ef).
    exists sc, rest. rewrite Sc. auto.
  - exists l. split; [|split]; (apply Hd; [apply hist_local; cbn; tauto|assumption]).
Qed.
Lemma here_printed w F L s out : here w F L s -> here w F L (printed out s).
Proof.
  intros H. eapply here_call; [exact H|apply goes_printed|reflexivity|].
  destruct H as [[(M1 & M2 & M3) _ _] _]. split; [exact M1|]. split; [|exact M3].
  intros x p W. destruct (M2 x p W) as (O & Nl & o & B & D). split; [exact O|]. split; [exact Nl|].
  exists o. split; [|exact D]. inversion B; subst; [contradiction|].
  exact (binding_global (printed out s) x Nl).
Qed.

(** ** The history *)
Lemma shift_goes x y s p :
  In x [hist1; hist2; hist3] -> In y [hist1; hist2; hist3] -> st_scopes s <> [] ->
  held s x (Some p) ->
  forall s', (w <- get_lval (LName x [] None);; assign (LName y [] None) w) s = Ok tt s' -> goes [] s s'.
Proof.
  intros Ix Iy NS H s' E.
  destruct (get_name_ok s x p (ordinary_hist s x Ix) (held_var _ _ _ H)) as (w & s1 & E1 & A1 & _).
  rewrite (bind_step _ _ _ _ _ E1) in E. apply assign_name_ok in E; [|apply ordinary_hist; exact Iy].
  eapply goes_then; [apply goes_adv; exact A1|eapply goes_rebound; exact E].
Qed.
Lemma update_goes v s p l s' :
  history s l -> den (st_heap s) v p -> update_history v s = Ok tt s' -> goes [] s s'.
Proof.
  intros (H1 & H2 & H3) D E.
  change (held s hist1 (nth_error l 0)) in H1. change (held s hist2 (nth_error l 1)) in H2.
  change (held s hist3 (nth_error l 2)) in H3.
  pose proof (held_scopes _ _ H1) as NS.
  assert (I1 : In hist1 [hist1; hist2; hist3]) by (left; reflexivity).
  assert (I2 : In hist2 [hist1; hist2; hist3]) by (right; left; reflexivity).
  assert (I3 : In hist3 [hist1; hist2; hist3]) by (right; right; left; reflexivity).
  assert (Last : forall s0 s1, assign (LName hist1 [] None) v s0 = Ok tt s1 -> goes [] s0 s1).
  { intros s0 s1 X. apply assign_name_ok in X; [|apply ordinary_hist; exact I1].
    eapply goes_rebound; exact X. }
  unfold update_history in E.
  destruct (get_held _ _ _ I1 H1) as (b1 & E1 & B1). rewrite (bind_step _ _ _ _ _ E1) in E.
  apply bind_ok in E. destruct E as ([] & s3 & E & E5). apply Last in E5.
  eapply goes_then; [|exact E5]. clear E5.
  destruct l as [|p1 l].
  - cbn [nth_error] in B1. subst b1. injection E as <-. apply goes_refl.
  - cbn [nth_error] in H1, H2, H3, B1. destruct B1 as [w1 ->].
    destruct (get_held _ _ _ I2 H2) as (b2 & E2 & B2). rewrite (bind_step _ _ _ _ _ E2) in E.
    apply bind_ok in E. destruct E as ([] & s1 & E3 & E4).
    destruct l as [|p2 l]; cbn [nth_error] in *.
    + subst b2. injection E3 as <-. exact (shift_goes hist1 hist2 s p1 I1 I2 NS H1 s3 E4).
    + destruct B2 as [w2 ->].
      destruct (shift_ok hist2 hist3 s p2 I2 I3 NS H2) as (s1' & E3' & _ & N3 & O3 & _).
      rewrite E3' in E3. injection E3 as ->.
      eapply goes_then; [exact (shift_goes hist2 hist3 s p2 I2 I3 NS H2 s1 E3')|].
      refine (shift_goes hist1 hist2 s1 p1 I1 I2 N3 _ s3 E4). apply O3; [discriminate|exact H1].
Qed.
Lemma here_update w F L s v p :
  here w F L s -> den (st_heap s) v p ->
  exists s', update_history v s = Ok tt s' /\ goes [] s s' /\ here w F L s'.
Proof.
  intros [[(Mf & Mv & Mo) Lc (f & Rn & Df)] (l & H)] D.
  destruct (update_keeps s v p l H D) as (s' & E & H' & (Mv' & _ & _)).
  pose proof (update_goes _ _ _ _ _ H D E) as G.
  exists s'. split; [exact E|]. split; [exact G|]. split; [split|exists (p :: l); exact H'].
  - split; [|split].
    + destruct G as ((A & _) & _). congruence.
    + intros x q W. destruct (Mv x q W) as (O & Nl & V). split; [eapply moved_ordinary; eassumption|].
      split; [exact Nl|]. eapply moved_var; [exact Mv'| |exact V].
      intros I. apply Nl. apply hist_local. exact I.
    + intros One. destruct Mv' as ([t Eh] & _). unfold has_one. rewrite Eh.
      rewrite nth_error_app1; [exact (Mo One)|]. apply nth_error_Some. rewrite (Mo One). discriminate.
  - intros c I. eapply moved_var; [exact Mv'| |exact (Lc c I)].
    intros J. exact (hist_letter _ _ J eq_refl).
  - exists f. split; [|eapply goes_den; eassumption].
    destruct Rn as (sc & rest & Es & Ef). destruct G as (_ & _ & _ & Fs & _). rewrite Es in Fs.
    destruct (st_scopes s') as [|sc' rest'] eqn:Es'; [discriminate|]. injection Fs as E1 _.
    exists sc', rest'. split; [exact Es'|congruence].
Qed.

(** ** Statements *)
Lemma dent_pcmd h t text rs c :
  command_of (s_ text) = Some c -> dent h t (pcmd text rs) ->
  exists es, t = command_stmt text es /\ dents h es rs.
Proof.
  intros E D. unfold pcmd in D. rewrite E in D. inversion D; subst.
  eexists. split; [|eassumption]. unfold command_stmt. rewrite E. reflexivity.
Qed.
Lemma dent_blk h t rs : dent h t (TBlk rs) -> exists es, t = TBlk es /\ dents h es rs.
Proof. intros D. inversion D; subst. eauto. Qed.
Definition is_expr (V : Type) (t : tree V) : Prop :=
  match t with TCmd _ _ | TBlk _ => False | _ => True end.
Arguments is_expr {V} t.
Lemma executes_expr s t v s' : gives s t v s' -> is_expr t -> executes s t (Some v) s'.
Proof.
  intros [n E] X. exists (S n). change (exec_stmt (run n) t s = Ok (Some v) s').
  destruct t; try contradiction; cbn [exec_stmt]; rewrite (bind_step _ _ _ _ _ E); reflexivity.
Qed.
Lemma papp_expr text es : is_expr (papp text es).
Proof. unfold papp. destruct (op_by_arity _ _); exact I. Qed.
Lemma value_expr w F L e p : has_value w F L e p -> is_expr e.
Proof. intros H. inversion H; subst; try exact I; apply papp_expr. Qed.
Lemma dent_expr h t r : dent h t r -> is_expr r -> is_expr t.
Proof. intros D. inversion D; subst; auto. Qed.

(** Binding a variable. *)
Lemma assigned w F L w' L' s s1 t x v p :
  here w F L s1 -> den (st_heap s1) v p -> sets x p w L w' L' ->
  (forall s', rebound x v s1 s' -> evals s t (XL (LName x [] None)) s') ->
  exists u s2, gives s t u s2 /\ den (st_heap s2) u p /\ goes [] s1 s2 /\ here w' F L' s2.
Proof.
  intros H D Se Ev. pose proof (sets_ordinary _ _ _ _ _ _ s1 Se) as O.
  destruct (assign_fresh x v s1 O (here_scopes _ _ _ _ H)) as (s2 & _ & Rb).
  pose proof (here_rebound _ _ _ _ _ _ _ _ _ _ H Se D Rb) as H2.
  destruct (get_name_ok s2 x p (sets_ordinary _ _ _ _ _ _ s2 Se) (rebound_var _ _ _ _ _ Rb D))
    as (u & s3 & E & A & Du & _).
  exists u, s3. split; [apply gives_evals; eexists _, s2; split; [apply Ev; exact Rb|exact E]|].
  split; [exact Du|]. split; [eapply goes_then; [eapply goes_rebound; exact Rb|apply goes_adv; exact A]|].
  eapply here_adds; [exact H2|apply adv_only_adds; exact A].
Qed.
Lemma tuned_operands text o k a es s vs s1 ps r :
  op_by_arity (length es) (s_ text) = Some o -> value_op o (length es) ->
  operands s es vs s1 -> dens (st_heap s1) vs ps -> forallb plain ps = true ->
  snd (run_op (st_fmt s1) text ps) = Val r ->
  exists v s2, gives s (TApp (tuned o k a) es) v s2 /\ den (st_heap s2) v r /\ adv s1 s2.
Proof.
  intros Fo Vo Os Ds Pl E.
  pose proof (operands_length _ _ _ _ Os) as Len. pose proof (dens_length _ _ _ Ds) as Len2.
  assert (V' : value_op (tuned o k a) (length vs)) by (apply value_op_tuned; rewrite Len; exact Vo).
  unfold run_op in E. rewrite <- Len2, Len, Fo in E.
  assert (E' : snd (apply_op (st_fmt s1) (tuned o k a) ps) = Val r).
  { unfold apply_op in *. rewrite apply_tuned by exact Pl. exact E. }
  destruct (MutProof.op_values (tuned o k a) vs ps s1 r V' Ds E') as (n & u & s2 & E2 & A2 & D2).
  exists u, s2. split; [|split; [exact D2|exact A2]].
  destruct (operands_fuel _ _ _ _ Os) as [m K].
  apply gives_evals. exists (XR u), s2. split; [|reflexivity]. apply evals_app.
  exists (max n m). rewrite (eval_op_operands _ _ _ _ _ _ V' (K (max n m) ltac:(lia))).
  exact (more_ends _ n (S (max n m)) _ _ _ (steady_op _ _) ltac:(lia) E2).
Qed.

(** A call. *)
Lemma send_calls s e x s1 es xs s2 ps sts b :
  evals s e x s1 -> only_adds s1 s2 -> stands s1 x (PBlock sts b) ->
  (exists n, forall m, (n <= m)%nat -> mmap (eval_arg (run m)) (map ATree es) s1 = Ok xs s2) ->
  Forall2 (stands s2) xs ps ->
  exists s4 f args, only_adds s2 s4 /\ den (st_heap s4) f (PBlock sts b) /\ dens (st_heap s4) args ps /\
    forall v s', calls s4 f args v s' -> evals s (TApp op_send (e :: es)) (XR v) s'.
Proof.
  intros [k Ex] A12 Lx (n & Es) Rs.
  destruct (stands_read _ _ _ (stands_adds _ _ _ _ A12 Lx)) as (f & s3 & Ef & A3 & Df).
  apply adv_only_adds in A3.
  assert (Bf : h_block f = true) by (inversion Df; reflexivity).
  destruct (stands_all _ _ _ Rs s3 A3) as (args & s4 & Ea & A4 & Da).
  exists s4, f, args. split; [eapply adds_trans; eassumption|]. split; [eapply adds_den; eassumption|].
  split; [exact Da|]. intros v s' [m Ec].
  apply evals_app. set (N := max k (max n m)). exists N.
  rewrite eval_op_vals by reflexivity. cbn [map mmap eval_arg].
  assert (Em : (x0 <- i_eval (run N) e;; ys <- mmap (eval_arg (run N)) (map ATree es);; mret (x0 :: ys)) s
               = Ok (x :: xs) s2).
  { rewrite (bind_step _ _ _ _ _ (more_eval k N _ _ _ ltac:(lia) Ex ltac:(discriminate))).
    rewrite (bind_step _ _ _ _ _ (Es N ltac:(lia))). reflexivity. }
  rewrite (bind_step _ _ _ _ _ Em). apply (proj2 (catch_ok _ _ _ _)).
  cbn [map].
  transitivity ((h <- mret x;; tl <- mmap (eval_arg (run N)) (map AVal xs);; SEND (run N) h tl) s2);
    [reflexivity|].
  unfold mbind at 1, mret at 1. rewrite (bind_step _ _ _ _ _ (mmap_eval_vals _ _ _)).
  unfold SEND.
  assert (Eh : (match x with
          | XL lv => v0 <- get_lval lv;; mret (if h_block v0 then Some v0 else None)
          | XR v0 => mret (if h_block v0 then Some v0 else None)
          | XO _ => unmodelled
          end) s2 = Ok (Some f) s3).
  { destruct x as [w|lv|o]; cbn [rval_h] in Ef.
    - injection Ef as -> ->. rewrite Bf. reflexivity.
    - rewrite (bind_step _ _ _ _ _ Ef), Bf. reflexivity.
    - discriminate. }
  rewrite (bind_step _ _ _ _ _ Eh), (bind_step _ _ _ _ _ Ea).
  assert (Ec' : i_call (run N) f args s4 = Ok v s').
  { exact (more_ends _ m N _ _ _ (steady_call f args) ltac:(lia) Ec). }
  rewrite (bind_step _ _ _ _ _ Ec'). reflexivity.
Qed.

(** ** The semantics holds *)
Definition P_evaluates (F : pval) w L t out w' L' p : Prop :=
  is_expr t /\
  forall s t', here w F L s -> dent (st_heap s) t' t ->
  exists v s', gives s t' v s' /\ den (st_heap s') v p /\ goes out s s' /\ here w' F L' s'.
Definition P_runs (F : pval) w L t out w' L' : Prop :=
  forall s t', here w F L s -> dent (st_heap s) t' t ->
  exists r s', executes s t' r s' /\ (forall v, r = Some v -> exists p, den (st_heap s') v p)
    /\ goes out s s' /\ here w' F L' s'.
Definition P_all (F : pval) w L ts out w' L' : Prop :=
  forall s ts', here w F L s -> dents (st_heap s) ts' ts ->
  (exists s', does ts' s s' /\ goes out s s' /\ here w' F L' s') /\
  (exists s', function_body s ts' s' /\ goes out s s' /\ here w' F L' s').
Definition P_times (F : pval) w L body (k : nat) out w' L' : Prop :=
  forall s b, here w F L s -> dents (st_heap s) b body ->
  exists s', times b k s s' /\ goes out s s' /\ here w' F L' s'.
Definition P_each (F : pval) w L x body l out w' L' : Prop :=
  forall s b vs, here w F L s -> dents (st_heap s) b body -> dens (st_heap s) vs l ->
  exists s', for_each x b vs s s' /\ goes out s s' /\ here w' F L' s'.
Definition P_until (F : pval) w L sense c body out w' L' : Prop :=
  forall s c' b, here w F L s -> dent (st_heap s) c' c -> dents (st_heap s) b body ->
  exists s', while_does sense c' b s s' /\ goes out s s' /\ here w' F L' s'.
Definition P_invokes w (F : pval) args out w' p : Prop :=
  (exists sts r, F = PBlock sts r) /\
  forall s f vs, models s w -> den (st_heap s) f F -> dens (st_heap s) vs args ->
  exists v s', calls s f vs v s' /\ den (st_heap s') v p /\ goes out s s' /\ st_scopes s' = st_scopes s
    /\ models s' w'.
Definition P_invokes_each w (F : pval) l out w' ps : Prop :=
  (exists sts r, F = PBlock sts r) /\
  forall s f vs, models s w -> den (st_heap s) f F -> dens (st_heap s) vs l ->
  exists us s', calls_each f (map (fun v => [v]) vs) s us s' /\ dens (st_heap s') us ps /\ goes out s s'
    /\ st_scopes s' = st_scopes s /\ models s' w'
    /\ forall sense i bs, Forall2 counts ps bs -> SpecMap.keeps with_item the_item sense f i vs s (chosen sense bs vs) s'.
Definition P_evaluates_all (F : pval) w L ts out w' L' ps : Prop :=
  forall s ts', here w F L s -> dents (st_heap s) ts' ts ->
  exists vs s', operands s ts' vs s' /\ dens (st_heap s') vs ps /\ goes out s s' /\ here w' F L' s'.

Lemma value_gives w F L e r p s :
  has_value w F L r p -> here w F L s -> dent (st_heap s) e r ->
  exists v s1, gives s e v s1 /\ only_adds s s1 /\ den (st_heap s1) v p.
Proof.
  intros H [Fr _] D. destruct (values_reached w) as (V & _).
  exact (lands_gives _ _ _ (V _ _ _ _ H s e Fr D)).
Qed.
Lemma here_fmt w F L s : here w F L s -> st_fmt s = w_fmt w.
Proof. intros [[(E & _) _ _] _]. exact E. Qed.

Lemma added w F L out t q (s s1 : state) :
  goes out s s1 -> here w F L s1 ->
  (exists v s', gives s t v s' /\ den (st_heap s') v q /\ only_adds s1 s') ->
  exists v s', gives s t v s' /\ den (st_heap s') v q /\ goes out s s' /\ here w F L s'.
Proof.
  intros Go He (v & s' & G & D & A). exists v, s'. split; [exact G|]. split; [exact D|].
  split; [eapply goes_after; [exact Go|apply goes_adds; exact A]|eapply here_adds; eassumption].
Qed.

Lemma dens_chosen h sense bs : forall vs ps, dens h vs ps -> dens h (chosen sense bs vs) (chosen sense bs ps).
Proof.
  induction bs as [|b bs IH]; intros vs ps D; destruct D; cbn [chosen]; try constructor.
  destruct (Bool.eqb b sense); [constructor; [assumption|]|]; apply IH; assumption.
Qed.
Lemma evals_yank s e v s1 s' :
  gives s e v s1 -> rebound (s_ "y") v s1 s' -> evals s (app "Y" [e]) (XL (LName (s_ "y") [] None)) s'.
Proof.
  intros G Rb.
  assert (Q : exists o, op_by_arity 1 (s_ "Y") = Some o /\ MainProof.plain_rvals o = true /\ o_fun o = F_YANK)
    by (eexists; vm_compute; split; [reflexivity|split; reflexivity]).
  destruct Q as (o & Q1 & Q2 & Q3).
  eapply (evals_plain "Y" o [e] s [v] s1 _ s' Q1 Q2); [econstructor; [exact G|constructor]|].
  rewrite Q3. exists 0%nat.
  change (YANK v s1 = Ok (XL (LName (s_ "y") [] None)) s').
  unfold YANK. rewrite (bind_step _ _ _ (LName (s_ "y") [] None) s1) by reflexivity.
  rewrite (bind_step _ _ _ tt s'); [reflexivity|].
  apply assign_name_ok; [apply y_ordinary|exact Rb].
Qed.

Lemma named_value w F L x p s :
  has_value w F L (pname x) p -> here w F L s -> ordinary s x ->
  exists v s1, rval_h (XL (LName x [] None)) s = Ok v s1 /\ only_adds s s1 /\ den (st_heap s1) v p.
Proof.
  intros H He O.
  destruct (value_gives _ _ _ (name x) _ _ _ H He) as (v & s1 & G & A & D); [constructor|].
  apply gives_evals in G. destruct G as (r & s0 & E & V). apply evals_name in E; [|exact O].
  destruct E as [-> ->]. exists v, s1. auto.
Qed.
Lemma evals_swap s x y va s1 vb s2 s3 s4 :
  ordinary s x -> ordinary s y ->
  rval_h (XL (LName x [] None)) s = Ok va s1 -> rval_h (XL (LName y [] None)) s1 = Ok vb s2 ->
  assign (LName x [] None) vb s2 = Ok tt s3 -> assign (LName y [] None) va s3 = Ok tt s4 ->
  evals s (app "::" [name x; name y]) (XL (LName x [] None)) s4.
Proof.
  intros Ox Oy E1 E2 E3 E4.
  change (app "::" [name x; name y]) with (TApp op_swap [name x; name y]).
  apply evals_vals2; [reflexivity|].
  exists (XL (LName x [] None)), (XL (LName y [] None)), s, s.
  split; [apply evals_name; auto|]. split; [apply evals_name; auto|]. exists 0%nat.
  change (SWAP (XL (LName x [] None)) (XL (LName y [] None)) s = Ok (XL (LName x [] None)) s4).
  unfold SWAP.
  rewrite (bind_step _ _ _ _ _ E1), (bind_step _ _ _ _ _ E2), (bind_step _ _ _ _ _ E3),
    (bind_step _ _ _ _ _ E4). reflexivity.
Qed.

Lemma papp_token text es k : papp text es <> TTok k.
Proof. unfold papp. destruct (op_by_arity _ _); discriminate. Qed.
Lemma value_var w F L x p s : has_value w F L (pname x) p -> here w F L s -> var s x p.
Proof.
  intros H [[(_ & Mv & _) Lc _] _].
  inversion H; subst; try (apply Mv; assumption); try (apply Lc; assumption);
    try match goal with E : papp _ _ = _ |- _ => destruct (papp_token _ _ _ E) end.
  exfalso. match goal with K : t_kind _ <> KName |- _ => apply K; reflexivity end.
Qed.
(** Adding 1 to a variable or taking 1 away. *)
Lemma evals_step text o wn op s x p r :
  op_by_arity 1 (s_ text) = Some op -> MutProof.lambda_vals op = true ->
  (forall R a, call_fun R (o_fun op) [AVal a] = INC R wn o a) ->
  ordinary s x -> var s x p -> is_block p = false -> has_one s -> value_op o 2 ->
  snd (apply_op (st_fmt s) o [p; scal_Z 1]) = Val r ->
  exists u s1, only_adds s s1 /\ den (st_heap s1) u r /\
    forall s', rebound x u s1 s' -> evals s (app text [name x]) (XL (LName x [] None)) s'.
Proof.
  intros Fo P C O V NB One Vo E.
  destruct (MutProof.evals_lam1 s op (name x) (XL (LName x [] None)) s p P) as (s0 & A0 & K).
  { apply evals_name; auto. }
  { apply MutProof.name_readable; assumption. }
  { exact NB. }
  destruct (get_name_ok s0 x p (adv_ordinary _ _ _ A0 O) (adv_var _ _ _ _ A0 V)) as (v & s1 & E1 & A1 & D1 & _).
  pose proof (adv_trans _ _ _ A0 A1) as A01.
  assert (Ds : dens (st_heap s1) [v; scalar_one] [p; scal_Z 1]).
  { constructor; [exact D1|]. constructor; [|constructor]. apply (adv_den _ _ _ _ A01). constructor. exact One. }
  destruct (MutProof.op_values o [v; scalar_one] [p; scal_Z 1] s1 r Vo Ds) as (n & u & s2 & E2 & A2 & D2).
  { rewrite (adv_fmt _ _ A01). exact E. }
  exists u, s2. split; [apply adv_only_adds; eapply adv_trans; eassumption|]. split; [exact D2|].
  intros s' Rb. unfold app. cbn [length]. rewrite Fo. apply (K _ _ n). rewrite C. unfold INC.
  cbn [rval_h]. rewrite (bind_step _ _ _ _ _ E1), (bind_step _ _ _ _ _ E2). cbn [rval_h].
  rewrite (bind_step _ _ _ u s2) by reflexivity.
  rewrite (bind_step _ _ _ tt s'); [reflexivity|]. apply assign_name_ok; [|exact Rb].
  exact (adv_ordinary _ _ _ (adv_trans _ _ _ A01 A2) O).
Qed.

Theorem statements_run :
  (forall F w L t out w' L' p, evaluates F w L t out w' L' p -> P_evaluates F w L t out w' L' p) /\
  (forall F w L t out w' L', runs F w L t out w' L' -> P_runs F w L t out w' L') /\
  (forall F w L ts out w' L', runs_all F w L ts out w' L' -> P_all F w L ts out w' L') /\
  (forall F w L b k out w' L', runs_times F w L b k out w' L' -> P_times F w L b k out w' L') /\
  (forall F w L x b l out w' L', runs_each F w L x b l out w' L' -> P_each F w L x b l out w' L') /\
  (forall F w L sense c b out w' L', runs_until F w L sense c b out w' L' -> P_until F w L sense c b out w' L') /\
  (forall w F args out w' p, invokes w F args out w' p -> P_invokes w F args out w' p) /\
  (forall w F l out w' ps, invokes_each w F l out w' ps -> P_invokes_each w F l out w' ps) /\
  (forall F w L ts out w' L' ps, evaluates_all F w L ts out w' L' ps -> P_evaluates_all F w L ts out w' L' ps).
Proof.
  apply runs_mind.
  - (* value *)
    intros F w L e p H. split; [eapply value_expr; exact H|]. intros s t' He D.
    destruct (value_gives _ _ _ _ _ _ _ H He D) as (v & s1 & G & A & Dv).
    exists v, s1. split; [exact G|]. split; [exact Dv|].
    split; [apply goes_adds; exact A|eapply here_adds; eassumption].
  - (* parentheses *)
    intros F w L e out w' L' p _ [_ IH]. split; [exact I|]. intros s t' He D.
    inversion D as [| | |? es ? Ds| |]; subst. apply dents1 in Ds. destruct Ds as (e1 & -> & D1).
    destruct (IH s e1 He D1) as (v & s1 & G & R). exists v, s1. split; [|exact R].
    apply gives_evals in G. destruct G as (x & s0 & [n E] & V). apply gives_evals. exists x, s0.
    split; [|exact V]. apply evals_app. exists n.
    rewrite eval_op_vals by reflexivity. cbn [map mmap eval_arg].
    unfold mbind. rewrite E. unfold mret. reflexivity.
  - (* assignment *)
    intros F w L x e out w1 L1 p w' L' _ [_ IH] Se. split; [apply papp_expr|]. intros s t' He D.
    destruct (dent_here _ _ ":" [pname x; e] ltac:(vm_compute; reflexivity) D) as (es & -> & Ds).
    apply dents2 in Ds. destruct Ds as (e1 & e2 & -> & D1 & D2). inversion D1; subst.
    destruct (IH s e2 He D2) as (v & s1 & G & Dv & Go1 & He1).
    destruct (assigned w1 F L1 w' L' s s1 (app ":" [name x; e2]) x v p He1 Dv Se)
      as (u & s2 & G2 & Du & Go & He2).
    { intros s' Rb. apply evals_assign; [eapply sets_ordinary; exact Se|]. split; [reflexivity|]. eauto. }
    exists u, s2. split; [exact G2|]. split; [exact Du|].
    split; [eapply goes_after; eassumption|exact He2].
  - (* update *)
    intros F w L text o k a x es p qs r w' L' Fo Vo Hs Pl E Se. split; [exact I|]. intros s t' He D.
    inversion D as [| | |? es' ? Ds| |]; subst. inversion Ds as [|e0 ? es2 ? D0 Ds2]; subst.
    inversion D0; subst. destruct (values_reached w) as (_ & V & _).
    destruct He as [Fr Hi]. destruct (V _ _ _ _ Hs s (name x :: es2) Fr Ds) as (_ & vs & s1 & Os & A & Dv).
    rewrite <- (dents_length _ _ _ Ds2) in Fo, Vo.
    pose proof (here_adds _ _ _ _ _ (conj Fr Hi) A) as He1.
    destruct (tuned_operands text o k a (name x :: es2) s vs s1 (p :: qs) r Fo Vo Os Dv Pl) as (v & s2 & G & D2 & A2).
    { rewrite (here_fmt _ _ _ _ He1). exact E. }
    pose proof (here_adds _ _ _ _ _ He1 (adv_only_adds _ _ A2)) as He2.
    destruct (assigned w F L w' L' s s2 (assigning o k a x es2) x v r He2 D2 Se) as (u & s3 & G2 & Du & Go & He3).
    { intros s' Rb. apply evals_assigning; [eapply sets_ordinary; exact Se|econstructor; exact Fo|].
      split; [reflexivity|]. eauto. }
    exists u, s3. split; [exact G2|]. split; [exact Du|].
    split; [|exact He3]. eapply goes_then; [|exact Go].
    eapply goes_then; [apply goes_adds; exact A|apply goes_adv; exact A2].
  - (* O *)
    intros F w L e out w' L' p _ [_ IH]. split; [apply papp_expr|]. intros s t' He D.
    destruct (dent_here _ _ "O" [e] ltac:(vm_compute; reflexivity) D) as (es & -> & Ds).
    apply dents1 in Ds. destruct Ds as (e1 & -> & D1).
    destruct (IH s e1 He D1) as (v & s1 & G & Dv & Go1 & He1).
    pose proof (here_fmt _ _ _ _ He1) as Fm.
    assert (N : p = PNil \/ p <> PNil) by (destruct p; (left; reflexivity) || (right; discriminate)).
    destruct N as [->|N].
    + inversion Dv; subst. destruct (MainProof.output_nil _ _ _ G) as [G2 _].
      exists HNil, s1. cbn [shown shown_line]. rewrite app_nil_r. auto.
    + destruct (MainProof.output_expr _ _ _ _ _ G Dv N) as [G2 _]. rewrite Fm in G2.
      assert (X : shown (w_fmt w') p = listing (w_fmt w') p) by (destruct p; try reflexivity; congruence).
      rewrite X. eexists v, _. split; [exact G2|]. split; [exact Dv|].
      split; [eapply goes_trans; [exact Go1|apply goes_printed]|apply here_printed; exact He1].
  - (* P *)
    intros F w L e out w' L' p _ [_ IH]. split; [apply papp_expr|]. intros s t' He D.
    destruct (dent_here _ _ "P" [e] ltac:(vm_compute; reflexivity) D) as (es & -> & Ds).
    apply dents1 in Ds. destruct Ds as (e1 & -> & D1).
    destruct (IH s e1 He D1) as (v & s1 & G & Dv & Go1 & He1).
    pose proof (here_fmt _ _ _ _ He1) as Fm.
    assert (N : p = PNil \/ p <> PNil) by (destruct p; (left; reflexivity) || (right; discriminate)).
    destruct N as [->|N].
    + inversion Dv; subst. destruct (MainProof.output_nil _ _ _ G) as [_ G2].
      exists HNil, s1. cbn [shown shown_line]. rewrite app_nil_r. auto.
    + destruct (MainProof.output_expr _ _ _ _ _ G Dv N) as [_ G2]. rewrite Fm in G2.
      assert (X : shown_line (w_fmt w') p = listing (w_fmt w') p ++ [10%N]) by (destruct p; try reflexivity; congruence).
      rewrite X. eexists v, _. split; [exact G2|]. split; [exact Dv|].
      split; [eapply goes_trans; [exact Go1|apply goes_printed]|apply here_printed; exact He1].
  - (* and: stop *)
    intros F w L a b out w' L' p _ [_ IH] C. split; [apply papp_expr|]. intros s t' He D. apply counts_bool in C.
    destruct (dent_here _ _ "&" [a; b] ltac:(vm_compute; reflexivity) D) as (es & -> & Ds).
    apply dents2 in Ds. destruct Ds as (ea & eb & -> & Da & Db).
    destruct (IH s ea He Da) as (v & s1 & G & Dv & Go & He1).
    pose proof (evals_circuit false "&" op_and ea eb s (and_fun ea eb) eq_refl eq_refl v s1 p G Dv) as H.
    rewrite C in H. exists v, s1. split; [|auto]. apply gives_evals. exists (XR v), s1. split; [exact H|reflexivity].
  - (* and: go on *)
    intros F w L a b out w1 L1 p out' w' L' q _ [_ IH] C _ [_ IHb]. split; [apply papp_expr|].
    intros s t' He D. apply counts_bool in C.
    destruct (dent_here _ _ "&" [a; b] ltac:(vm_compute; reflexivity) D) as (es & -> & Ds).
    apply dents2 in Ds. destruct Ds as (ea & eb & -> & Da & Db).
    destruct (IH s ea He Da) as (v & s1 & G & Dv & Go & He1).
    pose proof (evals_circuit false "&" op_and ea eb s (and_fun ea eb) eq_refl eq_refl v s1 p G Dv) as H.
    rewrite C in H. cbn [eqb] in H.
    destruct (IHb s1 eb He1 (goes_dent _ _ _ _ _ Go Db)) as (v2 & s2 & G2 & Dv2 & Go2 & He2).
    exists v2, s2. split; [|split; [exact Dv2|split; [eapply goes_trans; eassumption|exact He2]]].
    apply gives_evals. exists (XR v2), s2. split; [exact (H v2 s2 G2)|reflexivity].
  - (* or: stop *)
    intros F w L a b out w' L' p _ [_ IH] C. split; [apply papp_expr|]. intros s t' He D. apply counts_bool in C.
    destruct (dent_here _ _ "|" [a; b] ltac:(vm_compute; reflexivity) D) as (es & -> & Ds).
    apply dents2 in Ds. destruct Ds as (ea & eb & -> & Da & Db).
    destruct (IH s ea He Da) as (v & s1 & G & Dv & Go & He1).
    pose proof (evals_circuit true "|" op_or ea eb s (or_fun ea eb) eq_refl eq_refl v s1 p G Dv) as H.
    rewrite C in H. exists v, s1. split; [|auto]. apply gives_evals. exists (XR v), s1. split; [exact H|reflexivity].
  - (* or: go on *)
    intros F w L a b out w1 L1 p out' w' L' q _ [_ IH] C _ [_ IHb]. split; [apply papp_expr|].
    intros s t' He D. apply counts_bool in C.
    destruct (dent_here _ _ "|" [a; b] ltac:(vm_compute; reflexivity) D) as (es & -> & Ds).
    apply dents2 in Ds. destruct Ds as (ea & eb & -> & Da & Db).
    destruct (IH s ea He Da) as (v & s1 & G & Dv & Go & He1).
    pose proof (evals_circuit true "|" op_or ea eb s (or_fun ea eb) eq_refl eq_refl v s1 p G Dv) as H.
    rewrite C in H. cbn [eqb] in H.
    destruct (IHb s1 eb He1 (goes_dent _ _ _ _ _ Go Db)) as (v2 & s2 & G2 & Dv2 & Go2 & He2).
    exists v2, s2. split; [|split; [exact Dv2|split; [eapply goes_trans; eassumption|exact He2]]].
    apply gives_evals. exists (XR v2), s2. split; [exact (H v2 s2 G2)|reflexivity].
  - (* if *)
    intros F w L t c a b out w1 L1 p out' w' L' q _ [_ IH] C _ [_ IHb]. split; [apply papp_expr|].
    intros s t' He D. apply counts_bool in C.
    destruct (dent_here _ _ "?" [c; a; b] ltac:(vm_compute; reflexivity) D) as (es & -> & Ds).
    apply dents3 in Ds. destruct Ds as (ec & ea & eb & -> & Dc & Da & Db).
    destruct (IH s ec He Dc) as (v & s1 & G & Dv & Go & He1).
    destruct (IHb s1 (if t then ea else eb) He1) as (v2 & s2 & G2 & Dv2 & Go2 & He2).
    { destruct t; eapply goes_dent; eassumption. }
    exists v2, s2. split; [|split; [exact Dv2|split; [eapply goes_trans; eassumption|exact He2]]].
    apply gives_evals in G2. destruct G2 as (x & s0 & E & V). apply gives_evals. exists x, s0.
    split; [|exact V]. eapply evals_if; [exact G|exact Dv|]. rewrite C. exact E.
  - (* call *)
    intros F w L e h es qs out w' p H Hs _ [(sts & rr & ->) IH]. split; [exact I|]. intros s t' He D.
    inversion D as [| | |? es' ? Ds| |]; subst. inversion Ds as [|e0 ? es2 ? D0 Ds2]; subst.
    destruct (values_reached w) as (V1 & V2 & _).
    destruct (V1 _ _ _ _ H s e0 (proj1 He) D0) as (x & s1 & Ex & A & Sx & _).
    pose proof (here_adds _ _ _ _ _ He A) as He1.
    destruct (V2 _ _ _ _ Hs s1 es2 (proj1 He1) (adds_dents _ _ _ _ A Ds2)) as ((xs & s2 & n & Es & A2 & Rs) & _).
    destruct (send_calls s e0 x s1 es2 xs s2 qs sts rr Ex A2 Sx (ex_intro _ n Es) Rs)
      as (s4 & f & args & A4 & Df & Da & Ev).
    pose proof (adds_trans _ _ _ A2 A4) as A24. pose proof (here_adds _ _ _ _ _ He1 A24) as He4.
    destruct (IH s4 f args (fr_since _ _ _ _ (proj1 He4)) Df Da) as (v & s5 & Cv & Dv & Go & Sc & M).
    exists v, s5. split; [|split; [exact Dv|split; [|eapply here_call; eassumption]]].
    + apply gives_evals. exists (XR v), s5. split; [apply Ev; exact Cv|reflexivity].
    + eapply goes_then; [apply goes_adds; eapply adds_trans; eassumption|exact Go].
  - (* recursion *)
    intros F w L e out w1 L1 q out' w' p _ [_ IH] _ [_ IHc]. split; [apply papp_expr|]. intros s t' He D.
    destruct (dent_here _ _ "RE" [e] ltac:(vm_compute; reflexivity) D) as (es & -> & Ds).
    apply dents1 in Ds. destruct Ds as (e1 & -> & D1).
    destruct (IH s e1 He D1) as (v & s1 & G & Dv & Go & He1).
    destruct (fr_self _ _ _ _ (proj1 He1)) as (f & Rn & Df).
    destruct (IHc s1 f [v] (fr_since _ _ _ _ (proj1 He1)) Df) as (u & s2 & Cu & Du & Go2 & Sc & M);
      [constructor; [exact Dv|constructor]|].
    exists u, s2. split; [|split; [exact Du|split; [eapply goes_trans; eassumption|eapply here_call; eassumption]]].
    apply gives_evals. exists (XR u), s2. split; [eapply evals_recurse; eassumption|reflexivity].
  - (* map *)
    intros F w L r1 r2 out w1 L1 h p l out' w' ws _ IHa El _ [(sts & rr & ->) IH]. split; [apply papp_expr|]. intros s t' He D.
    destruct (dent_here _ _ "M" [r1; r2] ltac:(vm_compute; reflexivity) D) as (es & -> & Ds).
    destruct (IHa s es He Ds) as (vs0 & s3 & Os & Dvs0 & Go1 & He3).
    apply dents2 in Ds. destruct Ds as (e1 & e2 & -> & _ & _).
    inversion Dvs0 as [|f ? ? ? Df Dx]; subst. inversion Dx as [|it ? ? ? Di Dn]; subst. inversion Dn; subst.
    destruct (iter_visits _ _ _ _ Di El) as (vs & s4 & I4 & A4 & Dvs & _).
    apply adv_only_adds in A4. pose proof (here_adds _ _ _ _ _ He3 A4) as He4.
    destruct (IH s4 f vs (fr_since _ _ _ _ (proj1 He4)) (adds_den _ _ _ _ A4 Df) Dvs)
      as (us & s5 & Cs & Dus & Go & Sc & M & _).
    assert (Ml : makes_list us s5 (HList (length (st_heap s5))) (set_heap (st_heap s5 ++ [OL us]) s5))
      by (split; reflexivity).
    destruct (listed_den _ _ _ _ _ Dus Ml) as [Du A6].
    eexists _, _. split; [|split; [exact Du|split]].
    + apply gives_evals. eexists (XR _), _. split; [|reflexivity].
      eapply evals_map with (f := f) (it := it) (s1 := s3) (vs := vs) (s2 := s4) (s3 := s5) (rs := us);
        try eassumption.
      inversion Df; subst. eexists _, _. reflexivity.
    + eapply goes_trans; [exact Go1|]. eapply goes_then; [apply goes_adds; exact A4|].
      eapply goes_after; [exact Go|apply goes_adv; exact A6].
    + eapply here_adds; [eapply here_call; eassumption|apply adv_only_adds; exact A6].
  - (* filter *)
    intros F w L sense r1 r2 out w1 L1 h p l out' w' ws bs _ IHa El _ [(sts & rr & ->) IH] Cn.
    split; [destruct sense; apply papp_expr|]. intros s t' He D.
    assert (X : exists es, t' = app (if sense then "FI" else "FN") es /\ dents (st_heap s) es [r1; r2]).
    { destruct sense.
      - exact (dent_here _ _ "FI" [r1; r2] ltac:(vm_compute; reflexivity) D).
      - exact (dent_here _ _ "FN" [r1; r2] ltac:(vm_compute; reflexivity) D). }
    destruct X as (es & -> & Ds).
    destruct (IHa s es He Ds) as (vs0 & s3 & Os & Dvs0 & Go1 & He3).
    apply dents2 in Ds. destruct Ds as (e1 & e2 & -> & _ & _).
    inversion Dvs0 as [|f ? ? ? Df Dx]; subst. inversion Dx as [|it ? ? ? Di Dn]; subst. inversion Dn; subst.
    assert (Ap : applied s e1 e2 f it s3).
    { split; [inversion Df; subst; eexists _, _; reflexivity|left; exact Os]. }
    assert (X : exists vs s4, visits s3 it l vs s4 /\
      forall u s', gives s (app (if sense then "FI" else "FN") [e1; e2]) u s' <->
        exists rs s5, SpecMap.keeps with_item the_item sense f 0 vs s4 rs s5 /\ makes_list rs s5 u s').
    { destruct sense; [exact (filter_calls _ _ _ _ _ _ _ _ Ap Di El)|exact (filternot_calls _ _ _ _ _ _ _ _ Ap Di El)]. }
    destruct X as (vs & s4 & (A4 & Dvs & _) & Gv).
    pose proof (here_adds _ _ _ _ _ He3 A4) as He4.
    destruct (IH s4 f vs (fr_since _ _ _ _ (proj1 He4)) (adds_den _ _ _ _ A4 Df) Dvs)
      as (us & s5 & Cs & Dus & Go & Sc & M & K).
    specialize (K sense 0%nat bs Cn). set (ks := chosen sense bs vs) in *.
    assert (Dks : dens (st_heap s5) ks (chosen sense bs l)) by (apply dens_chosen; eapply goes_dens; eassumption).
    assert (Ml : makes_list ks s5 (HList (length (st_heap s5))) (set_heap (st_heap s5 ++ [OL ks]) s5))
      by (split; reflexivity).
    destruct (listed_den _ _ _ _ _ Dks Ml) as [Du A6].
    eexists _, _. split; [apply Gv; eauto|]. split; [exact Du|]. split.
    + eapply goes_trans; [exact Go1|]. eapply goes_then; [apply goes_adds; exact A4|].
      eapply goes_after; [exact Go|apply goes_adv; exact A6].
    + eapply here_adds; [eapply here_call; eassumption|apply adv_only_adds; exact A6].
  - (* yank *)
    intros F w L e out w1 L1 p w' L' _ [_ IH] Se. split; [apply papp_expr|]. intros s t' He D.
    destruct (dent_here _ _ "Y" [e] ltac:(vm_compute; reflexivity) D) as (es & -> & Ds).
    apply dents1 in Ds. destruct Ds as (e1 & -> & D1).
    destruct (IH s e1 He D1) as (v & s1 & G & Dv & Go1 & He1).
    destruct (assigned w1 F L1 w' L' s s1 (app "Y" [e1]) (s_ "y") v p He1 Dv Se)
      as (u & s2 & G2 & Du & Go & He2).
    { intros s' Rb. apply (evals_yank s e1 v s1 s' G Rb). }
    exists u, s2. split; [exact G2|]. split; [exact Du|].
    split; [eapply goes_after; eassumption|exact He2].
  - (* swap *)
    intros F w L x y p q w1 L1 w' L' Ne Hx Hy Sx Sy. split; [apply papp_expr|]. intros s t' He D.
    destruct (dent_here _ _ "::" [pname x; pname y] ltac:(vm_compute; reflexivity) D) as (es & -> & Ds).
    apply dents2 in Ds. destruct Ds as (e1 & e2 & -> & D1 & D2). inversion D1; subst. inversion D2; subst.
    destruct (named_value _ _ _ _ _ _ Hx He (sets_ordinary _ _ _ _ _ _ s Sx)) as (va & s1 & E1 & A1 & Da).
    pose proof (here_adds _ _ _ _ _ He A1) as He1.
    destruct (named_value _ _ _ _ _ _ Hy He1 (sets_ordinary _ _ _ _ _ _ s1 Sy)) as (vb & s2 & E2 & A2 & Db).
    pose proof (here_adds _ _ _ _ _ He1 A2) as He2.
    destruct (assign_fresh x vb s2 (sets_ordinary _ _ _ _ _ _ s2 Sx) (here_scopes _ _ _ _ He2)) as (s3 & E3 & R3).
    pose proof (here_rebound _ _ _ _ _ _ _ _ _ _ He2 Sx Db R3) as He3.
    destruct (assign_fresh y va s3 (sets_ordinary _ _ _ _ _ _ s3 Sy) (here_scopes _ _ _ _ He3)) as (s4 & E4 & R4).
    assert (Da3 : den (st_heap s3) va p).
    { rewrite (rebound_heap _ _ _ _ R3). eapply adds_den; eassumption. }
    pose proof (here_rebound _ _ _ _ _ _ _ _ _ _ He3 Sy Da3 R4) as He4.
    assert (V4 : var s4 x q).
    { eapply rebound_other_var; [exact R4|congruence|]. eapply rebound_var; eassumption. }
    destruct (get_name_ok s4 x q (sets_ordinary _ _ _ _ _ _ s4 Sx) V4) as (u & s5 & E5 & A5 & Du & _).
    exists u, s5. split; [|split; [exact Du|split]].
    + apply gives_evals. exists (XL (LName x [] None)), s4. split; [|exact E5].
      apply (evals_swap s x y va s1 vb s2 s3 s4); try assumption; eapply sets_ordinary; eassumption.
    + eapply goes_then; [apply goes_adds; eapply adds_trans; eassumption|].
      eapply goes_then; [eapply goes_rebound; exact R3|]. eapply goes_then; [eapply goes_rebound; exact R4|].
      apply goes_adv. exact A5.
    + eapply here_adds; [exact He4|apply adv_only_adds; exact A5].
  - (* step *)
    intros F w L text by_ x p r w' L' It One Hx NB E Se.
    assert (Q : exists op o wn, op_by_arity 1 (s_ text) = Some op /\ MutProof.lambda_vals op = true
      /\ (forall R a, call_fun R (o_fun op) [AVal a] = INC R wn o a) /\ value_op o 2
      /\ forall fmt a, run_op fmt by_ [a; scal_Z 1] = apply_op fmt o [a; scal_Z 1]).
    { repeat destruct It as [It|It]; [..|destruct It]; injection It as <- <-.
      1, 2: eexists _, op_plus, _.
      3, 4: eexists _, op_minus, _.
      all: (split; [reflexivity|]; split; [reflexivity|]; split; [reflexivity|]; split; [constructor; reflexivity|];
            intros; reflexivity). }
    destruct Q as (op & o & wn & Q1 & Q2 & Q3 & Q4 & Q5).
    split; [unfold papp; cbn [length]; rewrite Q1; exact I|]. intros s t' He D.
    assert (X : exists es, t' = app text es /\ dents (st_heap s) es [pname x]).
    { unfold papp in D. cbn [length] in D. rewrite Q1 in D. inversion D as [| | |? es ? Ds| |]; subst.
      exists es. split; [|exact Ds]. unfold app. rewrite (dents_length _ _ _ Ds). cbn [length]. rewrite Q1. reflexivity. }
    destruct X as (es & -> & Ds). apply dents1 in Ds. destruct Ds as (e1 & -> & D1). inversion D1; subst.
    pose proof (value_var _ _ _ _ _ _ Hx He) as V.
    assert (One' : has_one s) by (destruct He as [[(_ & _ & Mo) _ _] _]; exact (Mo One)).
    destruct (evals_step text o wn op s x p r Q1 Q2 Q3 (sets_ordinary _ _ _ _ _ _ s Se) V NB One' Q4)
      as (u & s1 & A & Du & Ev).
    { rewrite <- Q5, (here_fmt _ _ _ _ He). exact E. }
    destruct (assigned w F L w' L' s s1 (app text [name x]) x u r (here_adds _ _ _ _ _ He A) Du Se Ev)
      as (u' & s2 & G2 & Du2 & Go & He2).
    exists u', s2. split; [exact G2|]. split; [exact Du2|].
    split; [eapply goes_then; [apply goes_adds; exact A|exact Go]|exact He2].
  - (* comparison *)
    intros F w L r0 links out w' L' p0 ps r Ne Cs _ IH Bs C. split; [exact I|]. intros s t' He D.
    inversion D as [| | |? es ? Ds| |]; subst. inversion Ds as [|e0 ? es' ? D0 Ds']; subst.
    destruct (dents_links _ _ _ Ds') as (ls & -> & E1 & Dl).
    change (TApp op_chain (e0 :: flat_map (fun l => [TOpr (fst l); snd l]) ls)) with (chain_tree e0 ls).
    destruct (IH s (e0 :: map snd ls) He) as (vs & s1 & Os & Dv & Go & He1); [constructor; assumption|].
    inversion Os as [|? ? v0 ? ? vs0]; subst. rewrite <- E1 in Cs, C.
    rewrite <- (here_fmt _ _ _ _ He1) in C.
    assert (Fm : st_fmt s1 = st_fmt s) by (destruct Go as ((G & _) & _); exact G). rewrite Fm in C.
    destruct (chain_evals s e0 ls v0 vs0 s1 p0 ps r) as (v & s9 & Ev & Dw & A2); try assumption.
    { intros ->. destruct links; [congruence|discriminate]. }
    apply (added _ _ _ _ _ _ _ _ Go He1). exists v, s9. split; [|auto].
    apply gives_evals. exists (XR v), s9. split; [exact Ev|reflexivity].
  - (* operator *)
    intros F w L text o es out w' L' ps r Fo Vo _ IH Pl E. split; [exact I|]. intros s t' He D.
    inversion D as [| | |? es' ? Ds| |]; subst.
    destruct (IH s es' He Ds) as (vs & s1 & Os & Dv & Go & He1).
    rewrite <- (dents_length _ _ _ Ds) in Fo, Vo.
    destruct (tuned_operands text o (o_prec o) (o_assoc o) es' s vs s1 ps r Fo Vo Os Dv Pl) as (u & s2 & G2 & Du & A2).
    { rewrite (here_fmt _ _ _ _ He1). exact E. }
    assert (T : tuned o (o_prec o) (o_assoc o) = o) by (destruct o; reflexivity). rewrite T in G2.
    exists u, s2. split; [exact G2|]. split; [exact Du|].
    split; [eapply goes_after; [exact Go|apply goes_adv; exact A2]|].
    eapply here_adds; [exact He1|apply adv_only_adds; exact A2].
  - (* fold left *)
    intros F w L text o e out w' L' p a l rs Fo Vo As _ [_ IH] El Pl R. split; [exact I|]. intros s t' He D.
    inversion D as [| | |? es ? Ds| |]; subst. apply dents1 in Ds. destruct Ds as (e1 & -> & D1).
    destruct (IH s e1 He D1) as (v & s1 & G & Dv & Go & He1).
    assert (Fm : st_fmt s = w_fmt w') by (rewrite <- (here_fmt _ _ _ _ He1); symmetry; apply Go).
    rewrite <- Fm in R.
    destruct (fold_left_values text o s e1 v s1 p a l rs a Fo Vo As G Dv El Pl R) as [H _].
    exact (added _ _ _ _ _ _ _ _ Go He1 H).
  - (* scan left *)
    intros F w L text o e out w' L' p a l rs Fo Vo As _ [_ IH] El Pl R. split; [exact I|]. intros s t' He D.
    inversion D as [| | |? es ? Ds| |]; subst. apply dents1 in Ds. destruct Ds as (e1 & -> & D1).
    destruct (IH s e1 He D1) as (v & s1 & G & Dv & Go & He1).
    assert (Fm : st_fmt s = w_fmt w') by (rewrite <- (here_fmt _ _ _ _ He1); symmetry; apply Go).
    rewrite <- Fm in R.
    destruct (fold_left_values text o s e1 v s1 p a l rs a Fo Vo As G Dv El Pl R) as [_ H].
    exact (added _ _ _ _ _ _ _ _ Go He1 H).
  - (* fold right *)
    intros F w L text o e out w' L' p l c rs Fo Vo As _ [_ IH] El Pl R. split; [exact I|]. intros s t' He D.
    inversion D as [| | |? es ? Ds| |]; subst. apply dents1 in Ds. destruct Ds as (e1 & -> & D1).
    destruct (IH s e1 He D1) as (v & s1 & G & Dv & Go & He1).
    assert (Fm : st_fmt s = w_fmt w') by (rewrite <- (here_fmt _ _ _ _ He1); symmetry; apply Go).
    rewrite <- Fm in R.
    destruct (fold_right_values text o s e1 v s1 p l c rs Fo Vo As G Dv El Pl R) as [H _].
    exact (added _ _ _ _ _ _ _ _ Go He1 H).
  - (* scan right *)
    intros F w L text o e out w' L' p l c rs Fo Vo As _ [_ IH] El Pl R. split; [exact I|]. intros s t' He D.
    inversion D as [| | |? es ? Ds| |]; subst. apply dents1 in Ds. destruct Ds as (e1 & -> & D1).
    destruct (IH s e1 He D1) as (v & s1 & G & Dv & Go & He1).
    assert (Fm : st_fmt s = w_fmt w') by (rewrite <- (here_fmt _ _ _ _ He1); symmetry; apply Go).
    rewrite <- Fm in R.
    destruct (fold_right_values text o s e1 v s1 p l c rs Fo Vo As G Dv El Pl R) as [_ H].
    exact (added _ _ _ _ _ _ _ _ Go He1 H).
  - (* fold empty *)
    intros F w L text o e out w' L' p Fo _ [_ IH] El. split; [exact I|]. intros s t' He D.
    inversion D as [| | |? es ? Ds| |]; subst. apply dents1 in Ds. destruct Ds as (e1 & -> & D1).
    destruct (IH s e1 He D1) as (v & s1 & G & Dv & Go & He1).
    destruct (fold_empty text o s e1 v s1 p Fo G Dv El) as [(u & s2 & G2 & A2 & D2) _].
    exact (added _ _ _ _ _ _ _ _ Go He1 (ex_intro _ u (ex_intro _ s2 (conj G2 (conj D2 A2))))).
  - (* scan empty *)
    intros F w L text o e out w' L' p Fo _ [_ IH] El. split; [exact I|]. intros s t' He D.
    inversion D as [| | |? es ? Ds| |]; subst. apply dents1 in Ds. destruct Ds as (e1 & -> & D1).
    destruct (IH s e1 He D1) as (v & s1 & G & Dv & Go & He1).
    destruct (fold_empty text o s e1 v s1 p Fo G Dv El) as [_ H].
    exact (added _ _ _ _ _ _ _ _ Go He1 H).
  - (* expression *)
    intros F w L e out w' L' p _ [Ex IH] s t' He D. destruct (IH s t' He D) as (v & s1 & G & Dv & R).
    exists (Some v), s1. split; [apply executes_expr; [exact G|eapply dent_expr; eassumption]|].
    split; [intros u E; injection E as <-; eauto|exact R].
  - (* I *)
    intros F w L t c yes no out w1 L1 p out' w' L' _ [_ H] C _ IH s t' He D.
    destruct (dent_pcmd _ _ "I" _ _ eq_refl D) as (es & -> & Ds).
    apply dents3 in Ds. destruct Ds as (ec & ey & en & -> & Dc & Dy & Dn).
    apply dent_blk in Dy. destruct Dy as (ys & -> & Dy). apply dent_blk in Dn. destruct Dn as (ns & -> & Dn).
    destruct (H s ec He Dc) as (v & s1 & G & Dv & Go1 & He1).
    destruct (IH s1 (if t then ys else ns) He1) as ((s2 & Do & Go & He2) & _).
    { destruct t; eapply goes_dents; eassumption. }
    exists None, s2. split; [|split; [discriminate|split; [eapply goes_trans; eassumption|exact He2]]].
    apply (if_does s ec ys ns v s1 t s2 G); [eapply object_counts_value; eassumption|exact Do].
  - (* L *)
    intros F w L e body out w1 L1 p k out' w' L' _ [_ H] Rp _ IH s t' He D.
    destruct (dent_pcmd _ _ "L" _ _ eq_refl D) as (es & -> & Ds).
    apply dents2 in Ds. destruct Ds as (ec & eb & -> & Dc & Db).
    apply dent_blk in Db. destruct Db as (bs & -> & Db).
    destruct (H s ec He Dc) as (v & s1 & G & Dv & Go1 & He1).
    destruct (IH s1 bs He1 (goes_dents _ _ _ _ _ Go1 Db)) as (s2 & Do & Go & He2).
    exists None, s2. split; [|split; [discriminate|split; [eapply goes_trans; eassumption|exact He2]]].
    apply (loop_does s ec bs v s1 p k s2 G Dv Rp). exact Do.
  - (* F *)
    intros F w L x e body out w1 L1 p l out' w' L' _ [_ H] El Nx _ IH s t' He D.
    destruct (dent_pcmd _ _ "F" _ _ eq_refl D) as (es & -> & Ds).
    apply dents3 in Ds. destruct Ds as (ex & ec & eb & -> & Dx & Dc & Db). inversion Dx; subst.
    apply dent_blk in Db. destruct Db as (bs & -> & Db).
    destruct (H s ec He Dc) as (v & s1 & G & Dv & Go1 & He1).
    assert (Ox : ordinary s x).
    { destruct Nx as [N|(c & I & ->)]; [|apply arg_ordinary; exact I].
      eapply (sets_ordinary x PNil w L). apply sets_global. exact N. }
    destruct (for_does s x ec bs v s1 p l Ox G Dv El) as (vs & s2 & A2 & Dvs & Iff).
    pose proof (goes_after _ _ _ _ Go1 (goes_adds _ _ A2)) as Go2.
    destruct (IH s2 bs vs (here_adds _ _ _ _ _ He1 A2) (goes_dents _ _ _ _ _ Go2 Db) Dvs) as (s3 & Do & Go & He3).
    exists None, s3. split; [apply Iff; exact Do|]. split; [discriminate|].
    split; [eapply goes_trans; eassumption|exact He3].
  - (* W *)
    intros F w L c body out w' L' _ IH s t' He D.
    destruct (dent_pcmd _ _ "W" _ _ eq_refl D) as (es & -> & Ds).
    apply dents2 in Ds. destruct Ds as (ec & eb & -> & Dc & Db).
    apply dent_blk in Db. destruct Db as (bs & -> & Db).
    destruct (IH s ec bs He Dc Db) as (s2 & Do & Go & He2).
    exists None, s2. split; [apply while_iff; exact Do|]. split; [discriminate|auto].
  - (* T *)
    intros F w L c body out w' L' _ IH s t' He D.
    destruct (dent_pcmd _ _ "T" _ _ eq_refl D) as (es & -> & Ds).
    apply dents2 in Ds. destruct Ds as (ec & eb & -> & Dc & Db).
    apply dent_blk in Db. destruct Db as (bs & -> & Db).
    destruct (IH s ec bs He Dc Db) as (s2 & Do & Go & He2).
    exists None, s2. split; [apply till_iff; exact Do|]. split; [discriminate|auto].
  - (* no statements *)
    intros F w L s ts' He D. inversion D; subst. split; exists s.
    + split; [constructor|]. split; [apply goes_refl|exact He].
    + split; [exists O; reflexivity|]. split; [apply goes_refl|exact He].
  - (* statements *)
    intros F w L t ts out w1 L1 out' w' L' _ IH _ IHs s ts' He D.
    inversion D as [|t' ? ts2 ? D1 Ds]; subst.
    destruct (IH s t' He D1) as (r & s1 & Ex & Dr & Go & He1). split.
    + destruct (IHs s1 ts2 He1 (goes_dents _ _ _ _ _ Go Ds)) as ((s2 & Do & Go2 & He2) & _).
      exists s2. split; [econstructor; eassumption|]. split; [eapply goes_trans; eassumption|exact He2].
    + assert (U : exists s2, (match r with Some v => update_history v | None => mret tt end) s1 = Ok tt s2
                   /\ goes [] s1 s2 /\ here w1 F L1 s2).
      { destruct r as [v|].
        - destruct (Dr v eq_refl) as [p Dv]. eapply here_update; eassumption.
        - exists s1. split; [reflexivity|]. split; [apply goes_refl|exact He1]. }
      destruct U as (s2 & Eu & Go2 & He2).
      pose proof (goes_after _ _ _ _ Go Go2) as Go12.
      destruct (IHs s2 ts2 He2 (goes_dents _ _ _ _ _ Go12 Ds)) as (_ & s3 & Do & Go3 & He3).
      exists s3. split; [|split; [eapply goes_trans; eassumption|exact He3]].
      apply ends_stmts_cons. exists s2. split; [|exact Do].
      exact (proj1 (ends_stmts_one t' s r s1 s2 Ex) Eu).
  - (* L: done *)
    intros F w L body s b He D. exists s. split; [constructor|]. split; [apply goes_refl|exact He].
  - intros F w L body k out w1 L1 out' w' L' _ IH _ IHs s b He D.
    destruct (IH s b He D) as ((s1 & Do & Go & He1) & _).
    destruct (IHs s1 b He1 (goes_dents _ _ _ _ _ Go D)) as (s2 & Do2 & Go2 & He2).
    exists s2. split; [econstructor; eassumption|]. split; [eapply goes_trans; eassumption|exact He2].
  - (* F: done *)
    intros F w L x body s b vs He D Dv. inversion Dv; subst.
    exists s. split; [constructor|]. split; [apply goes_refl|exact He].
  - intros F w L x body p l w1 L1 out w2 L2 out' w' L' Se _ IH _ IHs s b vs He D Dv.
    inversion Dv as [|v ? vs' ? D1 Ds]; subst.
    destruct (assign_fresh x v s (sets_ordinary _ _ _ _ _ _ s Se) (here_scopes _ _ _ _ He)) as (s0 & _ & Rb).
    pose proof (here_rebound _ _ _ _ _ _ _ _ _ _ He Se D1 Rb) as He0.
    pose proof (goes_rebound _ _ _ _ Rb) as Go0.
    destruct (IH s0 b He0 (goes_dents _ _ _ _ _ Go0 D)) as ((s1 & Do & Go & He1) & _).
    pose proof (goes_then _ _ _ _ Go0 Go) as Go01.
    destruct (IHs s1 b vs' He1 (goes_dents _ _ _ _ _ Go01 D) (goes_dens _ _ _ _ _ Go01 Ds)) as (s2 & Do2 & Go2 & He2).
    exists s2. split; [econstructor; eassumption|]. split; [eapply goes_trans; eassumption|exact He2].
  - (* W: done *)
    intros F w L sense c body out w' L' p _ [_ H] C s c' b He Dc D.
    destruct (H s c' He Dc) as (v & s1 & G & Dv & Go & He1).
    exists s1. split; [eapply while_stop; [exact G|eapply object_counts_value; eassumption]|auto].
  - intros F w L sense c body out w1 L1 p out' w2 L2 out'' w' L' _ [_ H] C _ IH _ IHs s c' b He Dc D.
    destruct (H s c' He Dc) as (v & s1 & G & Dv & Go1 & He1).
    destruct (IH s1 b He1 (goes_dents _ _ _ _ _ Go1 D)) as ((s2 & Do & Go2 & He2) & _).
    pose proof (goes_trans _ _ _ _ _ Go1 Go2) as Go12.
    destruct (IHs s2 c' b He2 (goes_dent _ _ _ _ _ Go12 Dc) (goes_dents _ _ _ _ _ Go12 D)) as (s3 & Do3 & Go3 & He3).
    exists s3. split; [eapply while_again; [exact G|eapply object_counts_value; eassumption|exact Do|exact Do3]|].
    split; [eapply goes_trans; [exact Go1|eapply goes_trans; eassumption]|exact He3].
  - (* function *)
    intros w sts r args out w1 L1 out' w' L' p _ IH _ [_ H]. split; [eauto|]. intros s f vs M Df Dvs.
    inversion Df as [| | | |sts1 e sts' r' Dn De|]; subst.
    destruct (call_runs sts1 e vs args s Dvs) as (s2 & En & Rn & Gc).
    destruct En as ((sc & A1) & Bf & Hg & Ha & Hi).
    assert (Si2 : since s s2).
    { destruct A1 as (V & _ & _ & _ & _ & _ & _ & _ & FM & T & _ & Hh & _). cbn in V, T, FM, Hh.
      repeat split; assumption. }
    pose proof (since_den _ _ _ _ Si2 Df) as Df2.
    assert (Fr : frame w (PBlock sts r) (bound (PBlock sts r) args) s2).
    { split; [eapply models_since; eassumption| |exists (HBlock sts1 e); auto].
      intros c I. repeat (destruct I as [<-|I]); [..|destruct I].
      1-5: apply held_nth.
      - exact (Ha 0%nat _ eq_refl).
      - exact (Ha 1%nat _ eq_refl).
      - exact (Ha 2%nat _ eq_refl).
      - exact (Ha 3%nat _ eq_refl).
      - exact (Ha 4%nat _ eq_refl).
      - apply held_var. exists (HBlock sts1 e). split; [exact Bf|exact Df2].
      - apply held_var. exact Hg. }
    inversion Df2 as [| | | |? ? ? ? Dn2 De2|]; subst.
    destruct (IH s2 sts1 (conj Fr (ex_intro _ [] Hi)) Dn2) as (_ & s3 & Fb & Go & He3).
    destruct (H s3 e He3 (goes_dent _ _ _ _ _ Go De2)) as (v & s4 & G & Dv & Go3 & He4).
    pose proof (goes_trans _ _ _ _ _ Go Go3) as Go4.
    assert (Sc2 : st_scopes s2 = sc :: st_scopes s).
    { destruct A1 as (_ & Sc1 & _). exact Sc1. }
    assert (Sc4 : exists sc', st_scopes s4 = sc' :: st_scopes s).
    { destruct Go4 as (_ & _ & _ & Fs & Tl). rewrite Sc2 in Fs, Tl. cbn [tl] in Tl.
      destruct (st_scopes s4) as [|sc' rest]; [discriminate|]. cbn [tl] in Tl. subst rest. eauto. }
    destruct Sc4 as [sc' Sc4].
    exists v, (set_scopes (st_scopes s) (st_depth s4 - 1) s4). split; [|split; [|split; [|split]]].
    + apply Gc. exists s3, s4. split; [exact Fb|]. split; [exact G|]. exists sc', (st_scopes s).
      split; [exact Sc4|reflexivity].
    + exact Dv.
    + destruct A1 as (_ & _ & Dp & _ & _ & In1 & Ou & _ & Fm & T & Rd & [t Hh] & _).
      cbn in Dp, In1, Ou, Fm, T, Rd, Hh.
      destruct Go4 as ((B1 & B2 & B3 & B4 & B5) & B6 & [u B7] & _ & _). unfold goes. cbn.
      split; [repeat split; try congruence; lia|]. split; [congruence|].
      split; [exists (t ++ u); rewrite B7, Hh; symmetry; apply app_assoc|auto].
    + reflexivity.
    + destruct He4 as [[(M1 & M2 & M3) _ _] _]. split; [exact M1|]. split; [|exact M3].
      intros x q W. destruct (M2 x q W) as (O & Nl & o & B & Dq). split; [exact O|]. split; [exact Nl|].
      exists o. split; [|exact Dq]. inversion B; subst; [contradiction|].
      exact (binding_global (set_scopes (st_scopes s) (st_depth s4 - 1) s4) x Nl).
  - (* no calls *)
    intros w sts r. split; [eauto|]. intros s f vs M Df Dv. inversion Dv; subst.
    exists [], s. split; [constructor|]. split; [constructor|]. split; [apply goes_refl|].
    split; [reflexivity|]. split; [exact M|]. intros sense i bs C. inversion C; subst. constructor.
  - intros w h p ps out w1 q out' w' qs _ [Fn IH] _ [_ IHs]. split; [exact Fn|]. intros s f vs M Df Dv.
    inversion Dv as [|v ? vs' ? D1 Ds]; subst.
    destruct (IH s f [v] M Df) as (u & s1 & Cu & Du & Go & Sc & M1); [constructor; [exact D1|constructor]|].
    destruct (IHs s1 f vs' M1 (goes_den _ _ _ _ _ Go Df) (goes_dens _ _ _ _ _ Go Ds))
      as (us & s2 & Cs & Dus & Go2 & Sc2 & M2 & K).
    exists (u :: us), s2. split; [cbn [map]; econstructor; eassumption|].
    split; [constructor; [eapply goes_den; eassumption|exact Dus]|].
    split; [eapply goes_trans; eassumption|]. split; [congruence|]. split; [exact M2|].
    intros sense i bs C. inversion C as [|? b ? bs' Cb Cs']; subst. cbn [chosen].
    assert (Ob : object_counts (st_heap s1) u b) by (eapply object_counts_value; eassumption).
    destruct (Bool.eqb b sense) eqn:Eb.
    + apply eqb_prop in Eb. subst b. eapply keeps_item; [constructor|exact Cu|exact Ob|constructor|apply K; exact Cs'].
    + eapply keeps_not; [constructor|exact Cu| |apply K; exact Cs'].
      replace (negb sense) with b by (destruct b, sense; try reflexivity; discriminate). exact Ob.
  - (* no operands *)
    intros F w L s ts' He D. inversion D; subst. exists [], s. split; [constructor|]. split; [constructor|].
    split; [apply goes_refl|exact He].
  - intros F w L e es out w1 L1 p out' w' L' ps _ [_ IH] _ IHs s ts' He D.
    inversion D as [|e1 ? es' ? D1 Ds]; subst.
    destruct (IH s e1 He D1) as (v & s1 & G & Dv & Go & He1).
    destruct (IHs s1 es' He1 (goes_dents _ _ _ _ _ Go Ds)) as (vs & s2 & Os & Dvs & Go2 & He2).
    exists (v :: vs), s2. split; [econstructor; eassumption|].
    split; [constructor; [eapply goes_den; eassumption|exact Dvs]|].
    split; [eapply goes_trans; eassumption|exact He2].
Qed.
