(** * What functions without side effects compute: proofs *)

From Coq Require Import String List NArith ZArith Bool Arith Lia.
From Verif Require Import PyStr PyRe PyNum Tokens OpFun OpTable Unparse
                          PTypes Ops OpsSeq Apply Spec StrFacts PFacts RunOp
                          Heap Exec SpecHeap HeapProof ExecRel ExecInv EvalProof
                          SpecScan SpecRun SpecVars VarProof CtlProof PureProof LoopProof SpecMap MapProof
                          FilterProof SpecMeta MetaProof SpecLam LamProof SpecRec RecProof SeqProof StandProof SpecFun.
Import ListNotations.
Local Open Scope string_scope.
Local Open Scope list_scope.

Scheme hv_ind := Minimality for has_value Sort Prop
with hvs_ind := Minimality for have_values Sort Prop
with called_mind := Minimality for called Sort Prop
with each_mind := Minimality for called_each Sort Prop.
Combined Scheme values_mind from hv_ind, hvs_ind, called_mind, each_mind.

Lemma since_global s s1 x p :
  since s s1 -> ordinary s x -> ~ is_local x -> var s x p -> ordinary s1 x /\ var s1 x p.
Proof.
  intros (V & T & _ & t & H) (O1 & O2 & O3 & O4) L (o & B & D). split.
  - repeat split; auto. rewrite T. exact O4.
  - exists o. split.
    + inversion B; subst; [contradiction|]. rewrite <- V. apply binding_global. exact L.
    + destruct o; [|exact D]. rewrite H. apply den_app. exact D.
Qed.

Lemma models_since s s1 w : models s w -> since s s1 -> models s1 w.
Proof.
  intros (F & V & One) Si. pose proof Si as (_ & _ & Fm & t & Hp). split; [congruence|]. split.
  - intros x p H. destruct (V x p H) as (O & L & W). destruct (since_global _ _ _ _ Si O L W). auto.
  - intros H. unfold has_one. rewrite Hp. rewrite nth_error_app1; [exact (One H)|].
    apply nth_error_Some. rewrite (One H). discriminate.
Qed.
Lemma models_adds s s1 w : models s w -> only_adds s s1 -> models s1 w.
Proof. intros M A. eapply models_since; [exact M|apply adds_since; exact A]. Qed.
Lemma models_setting s : models s (setting_of s).
Proof. split; [reflexivity|]. split; auto. Qed.

(** ** Inside a call of [F] *)
Record frame (w : setting) (F : pval) (L : N -> pval) (s1 : state) : Prop := {
  fr_since : models s1 w;
  fr_local : forall c, In c (s_ "abcdefg") -> var s1 [c] (L c);
  fr_self : exists f, running s1 f /\ den (st_heap s1) f F }.

Lemma frame_adds w F L s1 s2 : frame w F L s1 -> only_adds s1 s2 -> frame w F L s2.
Proof.
  intros [A B (f & D2 & D3)] Ad. split.
  - eapply models_adds; eassumption.
  - intros c I. eapply adds_var; [exact Ad|]. exact (B c I).
  - exists f. split; [eapply adds_running; eassumption|eapply adds_den; eassumption].
Qed.
(** ** Operators *)
Lemma evals_plain text o es s vs s1 x s2 :
  op_by_arity (length es) (s_ text) = Some o -> MainProof.plain_rvals o = true ->
  operands s es vs s1 -> ends (fun R => call_fun R (o_fun o) (map arg_of vs)) s1 x s2 ->
  evals s (app text es) x s2.
Proof.
  intros F P Os [n E1]. destruct (operands_fuel _ _ _ _ Os) as [k K].
  unfold app. rewrite F. apply evals_app. exists (max n k).
  assert (L : (k <= max n k)%nat) by lia.
  unfold MainProof.plain_rvals in P. split_flags P. unfold eval_op.
  repeat match goal with A : o_assign _ = _ |- _ => rewrite A; clear A
                       | A : o_map _ = _ |- _ => rewrite A; clear A
                       | A : o_fold _ = _ |- _ => rewrite A; clear A
                       | A : o_scan _ = _ |- _ => rewrite A; clear A end.
  rewrite (bind_step _ _ _ _ _ (prepare_trees _ (o_flags o) es s vs s1 ltac:(assumption) (K _ L))).
  match goal with A : f_in_lambda _ = false |- _ => rewrite A end. cbn [andb].
  rewrite map_map. cbn [fst].
  assert (X : existsb snd (map (fun v : hval => (arg_of v, false)) vs) = false).
  { clear. induction vs; auto. }
  rewrite X. rewrite apply_plain by assumption. apply catch_ok.
  exact (more_ends _ n (max n k) _ _ _ (steady_call_fun _ _) ltac:(lia) E1).
Qed.

Lemma evals_recurse s e a s1 f u s' :
  gives s e a s1 -> running s1 f -> calls s1 f [a] u s' -> evals s (app "RE" [e]) (XR u) s'.
Proof.
  intros G (sc & rest & Es & Ef) [n C].
  assert (Os : operands s [e] [a] s1) by (econstructor; [exact G|constructor]).
  assert (Q : exists o, op_by_arity 1 (s_ "RE") = Some o /\ MainProof.plain_rvals o = true /\ o_fun o = F_RECURSE)
    by (eexists; vm_compute; split; [reflexivity|split; reflexivity]).
  destruct Q as (o & Q1 & Q2 & Q3).
  apply (evals_plain "RE" o [e] s [a] s1 (XR u) s' Q1 Q2 Os). rewrite Q3. exists n.
  change (call_fun (run n) F_RECURSE (map arg_of [a]) s1 = Ok (XR u) s').
  transitivity ((r <- i_call (run n) f [a];; xret r) s1).
  - change (call_fun (run n) F_RECURSE (map arg_of [a]) s1) with
      ((g <- current_fun;; match g with Some g => r <- i_call (run n) g [a];; xret r | None => fail (EPy AttributeError) end) s1).
    assert (D : current_fun s1 = Ok (Some f) s1) by (unfold current_fun; rewrite Es, Ef; reflexivity).
    rewrite (bind_step _ _ _ _ _ D). reflexivity.
  - rewrite (bind_step _ _ _ _ _ C). reflexivity.
Qed.

Lemma evals_map s e1 e2 f it s1 p l vs s2 rs s3 u s' :
  is_function f -> operands s [e1; e2] [f; it] s1 -> den (st_heap s1) it p -> elems p l ->
  h_iter it s1 = Ok vs s2 -> calls_each f (map one vs) s2 rs s3 -> makes_list rs s3 u s' ->
  evals s (app "M" [e1; e2]) (XR u) s'.
Proof.
  intros F Os D E I C L. destruct (elems_object _ _ _ _ D E) as [It B].
  assert (Q : exists o, op_by_arity 2 (s_ "M") = Some o /\ MainProof.plain_rvals o = true /\ o_fun o = F_MAP)
    by (eexists; vm_compute; split; [reflexivity|split; reflexivity]).
  destruct Q as (o & Q1 & Q2 & Q3).
  apply (evals_plain "M" o [e1; e2] s [f; it] s1 (XR u) s' Q1 Q2 Os). rewrite Q3.
  apply (ends_eq (fun R => MAP R f it) (map_core f (map one vs)) s1 s2 (XR u) s').
  - intros R. apply MAP_core; assumption.
  - apply core_ends. eauto 6.
Qed.

Lemma evals_circuit (stop : bool) text o a b s :
  (forall R s0, call_fun R (o_fun o) [ATree a; ATree b] s0
     = (v <- rval_tree R a;; t <- truth v;;
        if eqb t stop then xret v else v' <- rval_tree R b;; xret v') s0) ->
  op_by_arity 2 (s_ text) = Some o -> plain_trees o = true ->
  forall v s1 p, gives s a v s1 -> den (st_heap s1) v p ->
  if eqb (p_bool p) stop then evals s (app text [a; b]) (XR v) s1
  else forall w s2, gives s1 b w s2 -> evals s (app text [a; b]) (XR w) s2.
Proof.
  intros H Fo P v s1 p [n G] D. unfold app. cbn [length]. rewrite Fo.
  destruct (eqb (p_bool p) stop) eqn:St.
  - apply evals_app. exists n. rewrite eval_op_trees by exact P. apply catch_ok. cbn [map].
    rewrite H. rewrite (bind_step _ _ _ _ _ G), (bind_step _ _ _ _ _ (truth_ok _ _ _ D)), St. reflexivity.
  - intros w s2 [m G2]. apply evals_app. exists (max n m). rewrite eval_op_trees by exact P.
    apply catch_ok. cbn [map]. rewrite H.
    rewrite (bind_step _ _ _ _ _ (more_rval n (max n m) _ _ _ ltac:(lia) G ltac:(discriminate))).
    rewrite (bind_step _ _ _ _ _ (truth_ok _ _ _ D)), St.
    rewrite (bind_step _ _ _ _ _ (more_rval m (max n m) _ _ _ ltac:(lia) G2 ltac:(discriminate))).
    reflexivity.
Qed.

Lemma evals_if a b c s v s1 p x s2 :
  gives s c v s1 -> den (st_heap s1) v p -> evals s1 (if p_bool p then a else b) x s2 ->
  evals s (app "?" [c; a; b]) x s2.
Proof.
  intros [n G] D [m E]. exists (S (S (max n m))).
  change (app "?" [c; a; b]) with (TApp op_ifte [c; a; b]).
  rewrite (ifte_go a b c s v s1 p (max n m) D).
  - apply (proj2 (catch_ok _ _ _ _)). apply (more_eval m); [lia|exact E|discriminate].
  - apply (more_rval n); [lia|exact G|discriminate].
Qed.

(** Operands one after the other. *)
Lemma stands_all xs : forall ps s, Forall2 (stands s) xs ps ->
  forall s0, only_adds s s0 ->
  exists vs s1, mmap rval_h xs s0 = Ok vs s1 /\ only_adds s0 s1 /\ dens (st_heap s1) vs ps.
Proof.
  induction xs as [|x xs IH]; intros ps s F s0 A; inversion F as [|x' p xs' ps' L F']; subst; cbn [mmap].
  - exists [], s0. split; [reflexivity|]. split; [apply adds_refl|constructor].
  - destruct (stands_read _ _ _ (stands_adds _ _ _ _ A L)) as (v & s1 & E1 & A1 & D).
    apply adv_only_adds in A1.
    destruct (IH ps' s F' s1 (adds_trans _ _ _ A A1)) as (vs & s2 & E2 & A2 & Ds).
    exists (v :: vs), s2.
    rewrite (bind_step _ _ _ _ _ E1), (bind_step _ _ _ _ _ E2). split; [reflexivity|].
    split; [eapply adds_trans; eassumption|]. constructor; [eapply adds_den; eassumption|exact Ds].
Qed.

Definition reach_all (s1 : state) (es : list (tree hval)) (ps : list pval) : Prop :=
  exists xs s2 n, (forall m, (n <= m)%nat -> mmap (eval_arg (run m)) (map ATree es) s1 = Ok xs s2)
    /\ only_adds s1 s2 /\ Forall2 (stands s2) xs ps.

(** The result is not a list of assignable expressions if [b]. *)
Definition lands (s1 : state) (e : tree hval) (p : pval) (b : bool) : Prop :=
  exists x s2, evals s1 e x s2 /\ only_adds s1 s2 /\ stands s2 x p /\ (b = true -> not_list x).
Lemma lands_value {b} s1 e p v s2 :
  evals s1 e (XR v) s2 -> only_adds s1 s2 -> den (st_heap s2) v p -> lands s1 e p b.
Proof.
  intros E A D. exists (XR v), s2. split; [exact E|]. split; [exact A|]. split; [constructor; exact D|].
  intros _ lvs sl. discriminate.
Qed.
Lemma lands_reaches {b} s1 e p : lands s1 e p b -> reaches s1 e p.
Proof. intros (x & s2 & E & A & St & _). exists x, s2. auto. Qed.
Lemma lands_gives {b} s1 e p :
  lands s1 e p b -> exists v s2, gives s1 e v s2 /\ only_adds s1 s2 /\ den (st_heap s2) v p.
Proof. intros H. apply reaches_gives. eapply lands_reaches. exact H. Qed.
Lemma lands_name {b} s1 x p : ordinary s1 x -> var s1 x p -> lands s1 (name x) p b.
Proof.
  intros O V. exists (XL (LName x [] None)), s1.
  split; [exists 1%nat; apply eval_name; exact O|]. split; [apply adds_refl|].
  split; [constructor; econstructor; [exact O|exact V|constructor]|].
  intros _ lvs sl. discriminate.
Qed.

Lemma stands_lvals s lvs : forall ps, Forall2 (stands s) (map XL lvs) ps -> names_all s lvs ps.
Proof.
  induction lvs as [|lv lvs IH]; intros ps F; inversion F as [|? ? ? ? H F']; subst; [constructor|].
  inversion H; subst. constructor; [assumption|]. apply IH. exact F'.
Qed.
Lemma lands_display s1 es ps : reach_all s1 es ps -> lands s1 (display es) (PList ps) false.
Proof.
  intros (xs & s2 & n & E & A1 & Rs).
  assert (H : exists x s3, LIST xs s2 = Ok x s3 /\ only_adds s2 s3 /\ stands s3 x (PList ps)).
  { assert (G : exists x s3, (vs <- mmap rval_h xs;; v <- new_list vs;; xret v) s2 = Ok x s3
                 /\ only_adds s2 s3 /\ stands s3 x (PList ps)).
    { destruct (stands_all _ _ _ Rs s2 (adds_refl _)) as (vs & s3 & E2 & A2 & Ds).
      destruct (new_list_ok vs s3 ps Ds) as (w & t & E3 & D3 & _).
      exists (XR w), (grow t s3). rewrite (bind_step _ _ _ _ _ E2), (bind_step _ _ _ _ _ E3).
      split; [reflexivity|]. split; [eapply adds_trans; [exact A2|apply adv_only_adds, adv_grow]|].
      constructor. exact D3. }
    unfold LIST. destruct xs as [|x0 xs]; [exact G|].
    destruct (all_lvals (x0 :: xs)) as [lvs|] eqn:L; [|exact G].
    apply all_lvals_map in L. exists (XL (LList lvs [])), s2.
    split; [reflexivity|]. split; [apply adds_refl|]. constructor. constructor.
    apply stands_lvals. rewrite <- L. exact Rs. }
  destruct H as (x & s3 & E2 & A2 & Rd). exists x, s3.
  split; [|split; [eapply adds_trans; eassumption|split; [exact Rd|discriminate]]].
  apply evals_app. exists n. rewrite eval_op_vals by reflexivity.
  rewrite (bind_step _ _ _ _ _ (E n ltac:(lia))). apply (proj2 (catch_ok _ _ _ _)).
  change ((xs0 <- mmap (eval_arg (run n)) (map AVal xs);; LIST xs0) s2 = Ok x s3).
  rewrite (bind_step _ _ _ _ _ (mmap_eval_vals _ _ _)). exact E2.
Qed.

Lemma evals_send s e x s1 es xs s2 ps b p :
  evals s e x s1 -> only_adds s1 s2 -> stands s1 x (PBlock [] b) ->
  (exists n, forall m, (n <= m)%nat -> mmap (eval_arg (run m)) (map ATree es) s1 = Ok xs s2) ->
  Forall2 (stands s2) xs ps ->
  (forall s3 f args, only_adds s2 s3 -> den (st_heap s3) f (PBlock [] b) -> dens (st_heap s3) args ps ->
     exists v s', calls s3 f args v s' /\ only_adds s3 s' /\ den (st_heap s') v p) ->
  exists v s', evals s (TApp op_send (e :: es)) (XR v) s' /\ only_adds s2 s' /\ den (st_heap s') v p.
Proof.
  intros [k Ex] A12 Lx (n & Es) Rs C.
  (* reading the head *)
  destruct (stands_read _ _ _ (stands_adds _ _ _ _ A12 Lx)) as (f & s3 & Ef & A3 & Df).
  apply adv_only_adds in A3.
  assert (Bf : h_block f = true) by (inversion Df; reflexivity).
  destruct (stands_all _ _ _ Rs s3 A3) as (args & s4 & Ea & A4 & Da).
  destruct (C s4 f args (adds_trans _ _ _ A3 A4) (adds_den _ _ _ _ A4 Df) Da) as (v & s' & [m Ec] & A5 & D).
  exists v, s'. split; [|split; [eapply adds_trans; [eapply adds_trans; eassumption|exact A5]|exact D]].
  apply evals_app. set (N := max k (max n m)). exists N.
  rewrite eval_op_vals by reflexivity. cbn [map mmap eval_arg].
  assert (Em : (x0 <- i_eval (run N) e;; ys <- mmap (eval_arg (run N)) (map ATree es);; mret (x0 :: ys)) s
               = Ok (x :: xs) s2).
  { rewrite (bind_step _ _ _ _ _ (more_eval k N _ _ _ ltac:(lia) Ex ltac:(discriminate))).
    rewrite (bind_step _ _ _ _ _ (Es N ltac:(lia))). reflexivity. }
  rewrite (bind_step _ _ _ _ _ Em). apply (proj2 (catch_ok _ _ _ _)).
  cbn [map].
  transitivity ((h <- mret x;; tl <- mmap (eval_arg (run N)) (map AVal xs);; SEND (run N) h tl) s2);
    [reflexivity|].
  unfold mbind at 1, mret at 1. rewrite (bind_step _ _ _ _ _ (mmap_eval_vals _ _ _)).
  unfold SEND.
  assert (Eh : (match x with
          | XL lv => v0 <- get_lval lv;; mret (if h_block v0 then Some v0 else None)
          | XR v0 => mret (if h_block v0 then Some v0 else None)
          | XO _ => unmodelled
          end) s2 = Ok (Some f) s3).
  { destruct x as [w|lv|o]; cbn [rval_h] in Ef.
    - injection Ef as -> ->. rewrite Bf. reflexivity.
    - rewrite (bind_step _ _ _ _ _ Ef), Bf. reflexivity.
    - discriminate. }
  rewrite (bind_step _ _ _ _ _ Eh), (bind_step _ _ _ _ _ Ea).
  assert (Ec' : i_call (run N) f args s4 = Ok v s').
  { exact (more_ends _ m N _ _ _ (steady_call f args) ltac:(lia) Ec). }
  rewrite (bind_step _ _ _ _ _ Ec'). reflexivity.
Qed.

(** ** Items and slices *)
Definition at2 : oper := Eval vm_compute in
  match op_by_arity 2 (s_ "@") with Some o => o | None => op_chain end.
Definition at1 : oper := Eval vm_compute in
  match op_by_arity 1 (s_ "@") with Some o => o | None => op_chain end.
Definition right1 : oper := Eval vm_compute in
  match op_by_arity 1 (s_ "@>") with Some o => o | None => op_chain end.
Lemma index_block p q : index_of p q -> is_block q = false.
Proof. intros [[t ->]|(lo & hi & -> & _)]; reflexivity. Qed.

Lemma not_list_at x i s y s' :
  not_list x -> at_index x i s = Ok y s' -> not_list y.
Proof.
  intros Nl E. destruct x as [v|[x sl c|lvs sl]|o]; cbn [at_index] in E.
  - destruct (h_iterable v).
    + apply bind_ok in E. destruct E as (n & s1 & _ & E).
      destruct (match n with Some n => (n =? 0)%Z | None => false end).
      * injection E as <- _. intros ? ?. discriminate.
      * apply bind_ok in E. destruct E as ([w|] & s2 & _ & E); injection E as <- _; intros ? ?; discriminate.
    + injection E as <- _. intros ? ?. discriminate.
  - apply bind_ok in E. destruct E as (lv & s1 & E1 & E). injection E as <- _.
    destruct c as [l|]; cbn [lval_extend] in E1.
    + apply bind_ok in E1. destruct E1 as (c & s2 & _ & E1). apply bind_ok in E1. destruct E1 as (l' & s3 & _ & E1).
      injection E1 as <- _. intros ? ?. discriminate.
    + injection E1 as <- _. intros ? ?. discriminate.
  - exfalso. exact (Nl _ _ eq_refl).
  - discriminate.
Qed.

Lemma item_ends x y s p q r :
  stands s x p -> stands s y q -> index_of p q -> snd (at_val p q) = Val r ->
  exists z s', ends (fun R => call_fun R F_AT [AVal x; AVal y]) s z s' /\ only_adds s s' /\ stands s' z r
    /\ (not_list x -> not_list z).
Proof.
  intros Sx Sy Iq E. destruct (yields_AT (run 0) x y s p q r Sx Sy Iq E) as (z & s' & Ez & A & Sz).
  exists z, s'. split; [exists 0%nat; exact Ez|]. split; [apply adv_only_adds; exact A|]. split; [exact Sz|].
  intros Nl. unfold AT in Ez. destruct (stands_read _ _ _ Sy) as (v & s1 & E1 & A1 & D).
  rewrite (bind_step _ _ _ _ _ E1) in Ez.
  destruct Iq as [[t ->]|(lo & hi & -> & _)]; inversion D; subst.
  - apply bind_ok in Ez. destruct Ez as (u & s2 & _ & Ez). eapply not_list_at; eassumption.
  - eapply not_list_at; eassumption.
Qed.
Lemma first_ends x s p r :
  stands s x p -> snd (op_AT p None) = Val r ->
  exists z s', ends (fun R => call_fun R F_AT [AVal x]) s z s' /\ only_adds s s' /\ stands s' z r
    /\ (not_list x -> not_list z).
Proof.
  intros Sx E. destruct (yields_head (run 0) x s p r Sx E) as (z & s' & Ez & A & Sz).
  exists z, s'. split; [exists 0%nat; exact Ez|]. split; [apply adv_only_adds; exact A|]. split; [exact Sz|].
  intros Nl. eapply not_list_at; eassumption.
Qed.

Lemma not_list_slice R f w mk d x y s p t z s' :
  stands s y (PScal t) -> not_list x -> stands s x p ->
  slice_op R f w mk x (Some y) d s = Ok z s' -> not_list z.
Proof.
  intros Sy Nl Sx Ez. unfold slice_op in Ez. destruct (stands_read _ _ _ Sy) as (v & s1 & E1 & A1 & D).
  rewrite (bind_step _ _ _ _ _ E1) in Ez. inversion D; subst.
  apply bind_ok in Ez. destruct Ez as (u & s2 & _ & Ez).
  destruct Sx as [v p Dv|lv p N].
  - destruct (h_iterable v).
    + apply bind_ok in Ez. destruct Ez as ([w'|] & s3 & _ & Ez); [|discriminate].
      injection Ez as <- _. intros ? ?. discriminate.
    + injection Ez as <- _. intros ? ?. discriminate.
  - apply bind_ok in Ez. destruct Ez as (lv' & s3 & E3 & Ez). injection Ez as <- _.
    destruct N as [x sl p q O V W|lvs ps _]; [|exfalso; exact (Nl _ _ eq_refl)].
    injection E3 as <- _. intros ? ?. discriminate.
Qed.
Lemma slice_ends o fo w mk d x y s p t r :
  (forall R, call_fun R (o_fun o) [AVal x; AVal y] = slice_op R fo w mk x (Some y) d) ->
  stands s x p -> not_list x -> stands s y (PScal t) -> snd (sliced w mk p (PScal t)) = Val r ->
  exists z s', ends (fun R => call_fun R (o_fun o) [AVal x; AVal y]) s z s' /\ only_adds s s'
    /\ stands s' z r /\ not_list z.
Proof.
  intros Hc Sx Nl Sy E. destruct (yields_slice (run 0) fo w mk d x y s p t r Sx Nl Sy E) as (z & s' & Ez & A & Sz).
  exists z, s'. split; [exists 0%nat; rewrite Hc; exact Ez|]. split; [apply adv_only_adds; exact A|].
  split; [exact Sz|]. eapply not_list_slice; eassumption.
Qed.
Lemma rest_ends x s p r :
  stands s x p -> not_list x -> stands s (XR scalar_one) (PScal (s_ "1")) ->
  snd (sliced "RIGHTOF" (fun z => ISlice (Some z) None) p (PScal (s_ "1"))) = Val r ->
  exists z s', ends (fun R => call_fun R F_RIGHTOF [AVal x]) s z s' /\ only_adds s s'
    /\ stands s' z r /\ not_list z.
Proof.
  intros Sx Nl Sy E.
  destruct (yields_slice (run 0) F_RIGHTOF "RIGHTOF" (fun z => ISlice (Some z) None) 1 x (XR scalar_one) s p
              (s_ "1") r Sx Nl Sy E) as (z & s' & Ez & A & Sz).
  exists z, s'. split; [exists 0%nat; exact Ez|]. split; [apply adv_only_adds; exact A|].
  split; [exact Sz|]. eapply not_list_slice; eassumption.
Qed.
Lemma slice_op_of text : In text ["@<"; "@>"; "H"; "S"] ->
  exists o, op_by_arity 2 (s_ text) = Some o /\ lambda_vals o = true /\
  exists fo w mk d, o_fun o = fo /\
    (forall x y R, call_fun R (o_fun o) [AVal x; AVal y] = slice_op R fo w mk x (Some y) d) /\
    (forall fmt p t, is_block p = false -> run_op fmt text [p; PScal t] = sliced w mk p (PScal t)).
Proof.
  intros I. repeat (destruct I as [<-|I]); [..|destruct I].
  all: eexists; split; [vm_compute; reflexivity|]; split; [reflexivity|].
  all: eexists _, _, _, _; split; [reflexivity|]; split; [intros; reflexivity|].
  all: intros fmt p t B; destruct p; try discriminate; reflexivity.
Qed.
Lemma run_first fmt p : is_block p = false -> run_op fmt "@" [p] = op_AT p None.
Proof. intros B. destruct p; try discriminate; reflexivity. Qed.
Lemma run_rest fmt p : is_block p = false ->
  run_op fmt "@>" [p] = sliced "RIGHTOF" (fun z => ISlice (Some z) None) p (PScal (s_ "1")).
Proof. intros B. destruct p; try discriminate; reflexivity. Qed.

Lemma send_item s e1 x s1 e2 y s2 p q r v s3 z s4 :
  evals s e1 x s1 -> evals s1 e2 y s2 -> rval_h x s2 = Ok v s3 -> only_adds s2 s3 -> den (st_heap s3) v p ->
  is_block p = false -> index_of p q -> snd (at_val p q) = Val r ->
  ends (fun R => call_fun R F_AT [AVal x; AVal y]) s3 z s4 -> only_adds s3 s4 -> stands s4 z r ->
  (not_list x -> not_list z) ->
  exists z' s', evals s (TApp op_send [e1; e2]) z' s' /\ only_adds s2 s' /\ stands s' z' r
    /\ (not_list x -> not_list z').
Proof.
  intros [k1 E1] [k2 E2] Ev A3 Dv Bp Iq Er Ez A4 Sz Nz.
  apply fun_ends in Ez. destruct Ez as [m Ez].
  set (N := max m (max k1 k2)).
  assert (G : forall z' s', SEND (run N) x [y] s2 = Ok z' s' -> evals s (TApp op_send [e1; e2]) z' s').
  { intros z' s' H. apply evals_app. exists N. rewrite eval_op_vals by reflexivity. cbn [map mmap eval_arg].
    rewrite (bind_step _ _ s [x; y] s2).
    2:{ rewrite (bind_step _ _ _ _ _ (more_eval k1 N _ _ _ ltac:(lia) E1 ltac:(discriminate))).
        rewrite (bind_step _ _ s1 [y] s2); [reflexivity|].
        rewrite (bind_step _ _ _ _ _ (more_eval k2 N _ _ _ ltac:(lia) E2 ltac:(discriminate))). reflexivity. }
    apply (proj2 (catch_ok _ _ _ _)). exact H. }
  pose proof (den_block _ _ _ Dv) as Bv. rewrite Bp in Bv.
  assert (Em : mfold (fun x i => i_fun (run N) F_AT [AVal x; AVal i]) x [y] s3 = Ok z s4).
  { cbn [mfold]. rewrite (bind_step _ _ _ _ _ (more_ends _ m N _ _ _ (steady_fun _ _) ltac:(lia) Ez)). reflexivity. }
  destruct x as [w|lv|o']; cbn [rval_h] in Ev; [| |discriminate].
  - injection Ev as -> ->. destruct (h_iterable v) eqn:Iv.
    + exists z, s4. split; [|auto]. apply G. unfold SEND. unfold mbind at 1, mret at 1. rewrite Bv, Iv. exact Em.
    + assert (r = PNil) as ->.
      { rewrite (den_iterable _ _ _ Dv) in Iv.
        destruct Iq as [[t ->]|(lo & hi & -> & _)]; cbn [at_val] in Er; unfold at_idx in Er; rewrite Iv in Er;
          injection Er as <-; reflexivity. }
      destruct (yields_weak_warn "SEND" s3) as (z' & s' & Ez' & A' & Sz').
      exists z', s'. split; [|split; [apply adv_only_adds; exact A'|split; [exact Sz'|]]].
      * apply G. unfold SEND. unfold mbind at 1, mret at 1. rewrite Bv, Iv. exact Ez'.
      * intros _. injection Ez' as <- _. intros ? ?. discriminate.
  - exists z, s4. split; [|split; [eapply adds_trans; eassumption|auto]]. apply G. unfold SEND.
    rewrite (bind_step _ _ s2 None s3); [exact Em|].
    rewrite (bind_step _ _ _ _ _ Ev), Bv. reflexivity.
Qed.

Lemma dents_snoc h l rs r : dents h l (rs ++ [r]) ->
  exists l1 t, l = l1 ++ [t] /\ dents h l1 rs /\ dent h t r.
Proof.
  revert l. induction rs as [|r0 rs IH]; intros l D; cbn [List.app] in D; inversion D; subst.
  - match goal with X : dents _ _ [] |- _ => inversion X; subst end. exists [], t. repeat split; [constructor|assumption].
  - match goal with X : dents _ _ (_ ++ _) |- _ => destruct (IH _ X) as (l1 & t1 & -> & D1 & D2) end.
    exists (t :: l1), t1. repeat split; [constructor; assumption|assumption].
Qed.
Lemma block_literal s sts v : mk_block sts = v -> evals s (TApp op_block [TBlk sts]) (XR v) s.
Proof.
  intros <-. apply evals_app. exists 1%nat. rewrite eval_op_trees by reflexivity. apply catch_ok. reflexivity.
Qed.

(** ** The semantics holds *)
Definition P_value (w : setting) (F : pval) (L : N -> pval) (r : tree pval) (p : pval) : Prop :=
  forall s1 e, frame w F L s1 -> dent (st_heap s1) e r -> lands s1 e p (sliceable r).
Definition P_values (w : setting) (F : pval) (L : N -> pval) (rs : list (tree pval)) (ps : list pval) : Prop :=
  forall s1 es, frame w F L s1 -> dents (st_heap s1) es rs ->
  reach_all s1 es ps /\
  exists vs s2, operands s1 es vs s2 /\ only_adds s1 s2 /\ dens (st_heap s2) vs ps.
Definition P_called (w : setting) (F : pval) (args : list pval) (p : pval) : Prop :=
  (exists b, F = PBlock [] b) /\
  forall s1 f vs, models s1 w -> den (st_heap s1) f F -> dens (st_heap s1) vs args ->
  exists v s', calls s1 f vs v s' /\ only_adds s1 s' /\ den (st_heap s') v p.
Definition P_each (w : setting) (F : pval) (ps rs : list pval) : Prop :=
  (exists b, F = PBlock [] b) /\
  forall s1 f vs, models s1 w -> den (st_heap s1) f F -> dens (st_heap s1) vs ps ->
  exists us s', calls_each f (map one vs) s1 us s' /\ only_adds s1 s' /\ dens (st_heap s') us rs.

Lemma dents2 h es r1 r2 : dents h es [r1; r2] -> exists e1 e2, es = [e1; e2] /\ dent h e1 r1 /\ dent h e2 r2.
Proof. intros D. inversion D as [|? ? ? ? D1 D2]; subst. inversion D2 as [|? ? ? ? D3 D4]; subst. inversion D4; subst. eauto 6. Qed.
Lemma dents1 h es r1 : dents h es [r1] -> exists e1, es = [e1] /\ dent h e1 r1.
Proof. intros D. inversion D as [|? ? ? ? D1 D2]; subst. inversion D2; subst. eauto. Qed.
Lemma dents3 h es r1 r2 r3 :
  dents h es [r1; r2; r3] -> exists e1 e2 e3, es = [e1; e2; e3] /\ dent h e1 r1 /\ dent h e2 r2 /\ dent h e3 r3.
Proof.
  intros D. inversion D as [|? ? ? ? D1 D2]; subst. apply dents2 in D2. destruct D2 as (e2 & e3 & -> & D2 & D3).
  eauto 8.
Qed.
Lemma dent_papp h e text rs o :
  op_by_arity (length rs) (s_ text) = Some o -> dent h e (papp text rs) ->
  exists es, e = app text es /\ dents h es rs.
Proof.
  intros Fo D. unfold papp in D. rewrite Fo in D. inversion D as [| | |? es ? Ds| |]; subst.
  exists es. split; [|exact Ds]. unfold app. rewrite (dents_length _ _ _ Ds), Fo. reflexivity.
Qed.


Lemma dent_here h e text rs :
  match op_by_arity (length rs) (s_ text) with Some _ => true | None => false end = true ->
  dent h e (papp text rs) -> exists es, e = app text es /\ dents h es rs.
Proof.
  intros H. destruct (op_by_arity (length rs) (s_ text)) as [o|] eqn:E; [|discriminate].
  exact (dent_papp _ _ _ _ _ E).
Qed.

Lemma dents_links h links : forall es,
  dents h es (flat_map (fun l => [TOpr (fst l); snd l]) links) ->
  exists ls, es = flat_map (fun l => [TOpr (fst l); snd l]) ls /\ map fst ls = map fst links
    /\ dents h (map snd ls) (map snd links).
Proof.
  induction links as [|[o r] links IH]; intros es D; cbn [flat_map List.app fst snd] in D.
  - inversion D; subst. exists []. split; [reflexivity|]. split; [reflexivity|constructor].
  - inversion D as [|e1 ? es1 ? D1 Ds1]; subst. inversion Ds1 as [|e2 ? es2 ? D2 Ds2]; subst.
    inversion D1; subst. destruct (IH _ Ds2) as (ls & -> & E & Dl).
    exists ((o, e2) :: ls). split; [reflexivity|]. cbn [map fst snd]. rewrite E.
    split; [reflexivity|constructor; assumption].
Qed.

Theorem values_reached w :
  (forall F L r p, has_value w F L r p -> P_value w F L r p) /\
  (forall F L rs ps, have_values w F L rs ps -> P_values w F L rs ps) /\
  (forall F args p, called w F args p -> P_called w F args p) /\
  (forall F ps rs, called_each w F ps rs -> P_each w F ps rs).
Proof.
  apply (values_mind w (P_value w) (P_values w) (P_called w) (P_each w)).
  - (* local *)
    intros F K c I s1 e Fr D. inversion D; subst. apply (lands_name s1 [c]).
    + apply arg_ordinary. exact I.
    + exact (fr_local _ _ _ _ Fr _ I).
  - (* global *)
    intros F K x p V s1 e Fr D. inversion D; subst.
    destruct (fr_since _ _ _ _ Fr) as (_ & X & _). destruct (X x p V) as (O1 & _ & V1).
    apply (lands_name s1 x); assumption.
  - (* object *)
    intros F K p s1 e Fr D. inversion D; subst.
    eapply lands_value; [exists 1%nat; reflexivity|apply adds_refl|assumption].
  - (* literal *)
    intros F K k p E1 E2 E3 s1 e Fr D. inversion D; subst.
    destruct (yields_fresh p s1) as (v & s2 & E & A1 & Dv).
    eapply lands_value with (v := v) (s2 := s2); [|apply adv_only_adds; exact A1|exact Dv].
    exists 1%nat. change (eval_tree (run 0) (TTok k) s1 = Ok (XR v) s2). cbn [eval_tree].
    assert (Y : (if is_literal (t_kind k) then p0 <- of_res (of_token k);; v0 <- fresh p0;; xret v0
                 else fail EFatal) s1 = Ok (XR v) s2).
    { rewrite E1, E3. cbn [of_res]. unfold mbind, mret. rewrite E. reflexivity. }
    destruct (t_kind k); try exact Y. congruence.
  - (* function literal *)
    intros F K rs r Ex s1 e Fr D. inversion D as [| | |? es ? Ds| |]; subst.
    apply dents1 in Ds. destruct Ds as (e1 & -> & D1). inversion D1 as [| | | |sts ? Ds|]; subst.
    apply dents_snoc in Ds. destruct Ds as (sts1 & e2 & -> & Ds & D2).
    apply (lands_value s1 _ _ (HBlock sts1 e2) s1); [|apply adds_refl|constructor; [exact Ds|exact D2]].
    apply block_literal. unfold mk_block. rewrite rev_app_distr. cbn [rev List.app]. rewrite rev_involutive.
    assert (T : tree_is_expr e2 = true).
    { destruct Ex as [o args'|x|k Lk]; inversion D2; subst; [reflexivity|reflexivity|].
      cbn [tree_is_expr]. destruct (t_kind k); try exact Lk; reflexivity. }
    rewrite T. reflexivity.
  - (* without a result *)
    intros F K rs c args rs' s1 e Fr D. inversion D as [| | |? es ? Ds| |]; subst.
    apply dents1 in Ds. destruct Ds as (e1 & -> & D1). inversion D1 as [| | | |sts ? Ds|]; subst.
    apply (lands_value s1 _ _ (HBlock sts (TVal HNil)) s1);
      [|apply adds_refl|constructor; [exact Ds|repeat constructor]].
    apply block_literal. unfold mk_block.
    apply dents_snoc in Ds. destruct Ds as (sts1 & e2 & -> & Ds & D2).
    inversion D2; subst. rewrite rev_app_distr. cbn [rev List.app tree_is_expr]. reflexivity.
  - (* empty *)
    intros F K s1 e Fr D. inversion D as [| | |? es ? Ds| |]; subst.
    apply dents1 in Ds. destruct Ds as (e1 & -> & D1). inversion D1 as [| | | |sts ? Ds|]; subst.
    inversion Ds; subst.
    apply (lands_value s1 _ _ (HBlock [] (TVal HNil)) s1); [|apply adds_refl|repeat constructor].
    apply block_literal. reflexivity.
  - (* operator *)
    intros F K text rs ps p (o & Fo & Vo) _ IH E s1 e Fr D.
    destruct (dent_papp _ _ _ _ _ Fo D) as (es & -> & Ds).
    destruct (IH s1 es Fr Ds) as (_ & vs & s2 & Os & A & Dv).
    rewrite <- (dents_length _ _ _ Ds) in Fo, Vo.
    pose proof (value_result text es s1 vs s2 ps o Fo Vo Os Dv) as H.
    destruct (fr_since _ _ _ _ Fr) as (Fm & _).
    rewrite Fm, E in H. destruct H as (v & s3 & G & D3 & A2).
    apply (lands_value s1 _ _ v s3); [exact G| |exact D3].
    eapply adds_trans; [exact A|apply adv_only_adds; exact A2].
  - (* parentheses *)
    intros F K r p _ IH s1 e Fr D. inversion D as [| | |? es ? Ds| |]; subst.
    apply dents1 in Ds. destruct Ds as (e1 & -> & D1).
    destruct (IH s1 e1 Fr D1) as (x & s2 & [n E] & A & L). exists x, s2.
    split; [|exact (conj A L)]. apply evals_app. exists n.
    rewrite eval_op_vals by reflexivity. cbn [map mmap eval_arg].
    unfold mbind. rewrite E. unfold mret. reflexivity.
  - (* display *)
    intros F K rs ps _ IH s1 e Fr D. inversion D as [| | |? es ? Ds| |]; subst.
    apply lands_display. exact (proj1 (IH s1 es Fr Ds)).
  - (* chain *)
    intros F K r0 links p0 ps r Ne Cs _ IH Bs C s1 e Fr D.
    inversion D as [| | |? es ? Ds| |]; subst. inversion Ds as [|e0 ? es' ? D0 Ds']; subst.
    destruct (dents_links _ _ _ Ds') as (ls & -> & E1 & Dl).
    change (TApp op_chain (e0 :: flat_map (fun l => [TOpr (fst l); snd l]) ls)) with (chain_tree e0 ls).
    destruct (IH s1 (e0 :: map snd ls) Fr) as (_ & vs & s2 & Os & A & Dv); [constructor; assumption|].
    inversion Os as [|? ? v0 ? ? vs0]; subst. rewrite <- E1 in Cs, C.
    destruct (fr_since _ _ _ _ Fr) as (Fm & _). rewrite <- Fm in C.
    destruct (chain_evals s1 e0 ls v0 vs0 s2 p0 ps r) as (w0 & s' & Ev & Dw & A2); try assumption.
    { intros ->. destruct links; [congruence|discriminate]. }
    eapply lands_value; [exact Ev|eapply adds_trans; eassumption|exact Dw].
  - (* and: stop *)
    intros F K a b p _ IH C s1 e Fr D. apply counts_bool in C.
    destruct (dent_here _ _ "&" [a; b] ltac:(vm_compute; reflexivity) D) as (es & -> & Ds).
    apply dents2 in Ds. destruct Ds as (ea & eb & -> & Da & Db).
    destruct (lands_gives _ _ _ (IH s1 ea Fr Da)) as (v & s2 & G & A & Dv).
    pose proof (evals_circuit false "&" op_and ea eb s1 (and_fun ea eb) eq_refl eq_refl v s2 p G Dv) as H.
    rewrite C in H. exact (lands_value _ _ _ _ _ H A Dv).
  - (* and: go *)
    intros F K a b p q _ IH C _ IHb s1 e Fr D. apply counts_bool in C.
    destruct (dent_here _ _ "&" [a; b] ltac:(vm_compute; reflexivity) D) as (es & -> & Ds).
    apply dents2 in Ds. destruct Ds as (ea & eb & -> & Da & Db).
    destruct (lands_gives _ _ _ (IH s1 ea Fr Da)) as (v & s2 & G & A & Dv).
    pose proof (evals_circuit false "&" op_and ea eb s1 (and_fun ea eb) eq_refl eq_refl v s2 p G Dv) as H.
    rewrite C in H. cbn [eqb] in H.
    destruct (lands_gives _ _ _ (IHb s2 eb (frame_adds _ _ _ _ _ Fr A) (adds_dent _ _ _ _ A Db)))
      as (w0 & s3 & G2 & A2 & Dw).
    exact (lands_value _ _ _ _ _ (H w0 s3 G2) (adds_trans _ _ _ A A2) Dw).
  - (* or: stop *)
    intros F K a b p _ IH C s1 e Fr D. apply counts_bool in C.
    destruct (dent_here _ _ "|" [a; b] ltac:(vm_compute; reflexivity) D) as (es & -> & Ds).
    apply dents2 in Ds. destruct Ds as (ea & eb & -> & Da & Db).
    destruct (lands_gives _ _ _ (IH s1 ea Fr Da)) as (v & s2 & G & A & Dv).
    pose proof (evals_circuit true "|" op_or ea eb s1 (or_fun ea eb) eq_refl eq_refl v s2 p G Dv) as H.
    rewrite C in H. exact (lands_value _ _ _ _ _ H A Dv).
  - (* or: go *)
    intros F K a b p q _ IH C _ IHb s1 e Fr D. apply counts_bool in C.
    destruct (dent_here _ _ "|" [a; b] ltac:(vm_compute; reflexivity) D) as (es & -> & Ds).
    apply dents2 in Ds. destruct Ds as (ea & eb & -> & Da & Db).
    destruct (lands_gives _ _ _ (IH s1 ea Fr Da)) as (v & s2 & G & A & Dv).
    pose proof (evals_circuit true "|" op_or ea eb s1 (or_fun ea eb) eq_refl eq_refl v s2 p G Dv) as H.
    rewrite C in H. cbn [eqb] in H.
    destruct (lands_gives _ _ _ (IHb s2 eb (frame_adds _ _ _ _ _ Fr A) (adds_dent _ _ _ _ A Db)))
      as (w0 & s3 & G2 & A2 & Dw).
    exact (lands_value _ _ _ _ _ (H w0 s3 G2) (adds_trans _ _ _ A A2) Dw).
  - (* if *)
    intros F K t c a b p q _ IH C _ IHb s1 e Fr D. apply counts_bool in C.
    destruct (dent_here _ _ "?" [c; a; b] ltac:(vm_compute; reflexivity) D) as (es & -> & Ds).
    apply dents3 in Ds. destruct Ds as (ec & ea & eb & -> & Dc & Da & Db).
    destruct (lands_gives _ _ _ (IH s1 ec Fr Dc)) as (v & s2 & G & A & Dv).
    destruct (IHb s2 (if t then ea else eb) (frame_adds _ _ _ _ _ Fr A)) as (x & s3 & E & A2 & L & Nl).
    { destruct t; eapply adds_dent; eassumption. }
    exists x, s3. split; [|split; [eapply adds_trans; eassumption|split; [exact L|]]].
    + eapply evals_if; [exact G|exact Dv|]. rewrite C. exact E.
    + assert (X : papp "?" [c; a; b] = TApp op_ifte [c; a; b]) by (vm_compute; reflexivity).
      rewrite X. cbn [sliceable op_ifte o_fun]. intros H. apply andb_prop in H. apply Nl. destruct t; apply H.
  - (* item *)
    intros F K re ri p q r _ IH _ IHi Bp Iq E s1 e Fr D.
    destruct (dent_here _ _ "@" [re; ri] ltac:(vm_compute; reflexivity) D) as (es & -> & Ds).
    apply dents2 in Ds. destruct Ds as (e1 & e2 & -> & D1 & D2).
    destruct (IH s1 e1 Fr D1) as (x & s2 & Ex & A & Sx & Nx).
    destruct (reaches_prepared at2 s1 e1 x s2 p eq_refl Ex Sx Bp) as (s3 & Px & A3).
    pose proof (adds_trans _ _ _ A A3) as A13.
    destruct (IHi s3 e2 (frame_adds _ _ _ _ _ Fr A13) (adds_dent _ _ _ _ A13 D2)) as (y & s4 & Ey & A4 & Sy & _).
    destruct (reaches_prepared at2 s3 e2 y s4 q eq_refl Ey Sy (index_block _ _ Iq)) as (s5 & Py & A5).
    pose proof (stands_adds _ _ _ _ A5 Sy) as Sy5.
    pose proof (stands_adds _ _ _ _ (adds_trans _ _ _ A3 (adds_trans _ _ _ A4 A5)) Sx) as Sx5.
    rewrite run_at in E by (exact Bp || exact (index_block _ _ Iq)).
    destruct (item_ends x y s5 p q r Sx5 Sy5 Iq E) as (z & s6 & Ez & A6 & Sz & Nz).
    exists z, s6. split; [|split; [|split; [exact Sz|]]].
    + eapply (evals_lambda2 "@" at2); [vm_compute; reflexivity|reflexivity|exact Px|exact Py|exact Ez].
    + eapply adds_trans; [exact A13|]. eapply adds_trans; [exact A4|]. eapply adds_trans; eassumption.
    + assert (X : papp "@" [re; ri] = TApp at2 [re; ri]) by (vm_compute; reflexivity).
      rewrite X. cbn [sliceable at2 o_fun]. auto.
  - (* item by juxtaposition *)
    intros F K re ri p q r _ IH _ IHi Bp Iq E s1 e Fr D.
    inversion D as [| | |? es ? Ds| |]; subst. apply dents2 in Ds. destruct Ds as (e1 & e2 & -> & D1 & D2).
    destruct (IH s1 e1 Fr D1) as (x & s2 & Ex & A & Sx & Nx).
    destruct (IHi s2 e2 (frame_adds _ _ _ _ _ Fr A) (adds_dent _ _ _ _ A D2)) as (y & s3 & Ey & A3 & Sy & _).
    pose proof (stands_adds _ _ _ _ A3 Sx) as Sx3.
    destruct (stands_read _ _ _ Sx3) as (v & s4 & Ev & A4 & Dv). apply adv_only_adds in A4.
    rewrite run_at in E by (exact Bp || exact (index_block _ _ Iq)).
    destruct (item_ends x y s4 p q r (stands_adds _ _ _ _ A4 Sx3) (stands_adds _ _ _ _ A4 Sy) Iq E)
      as (z & s6 & Ez & A6 & Sz & Nz).
    destruct (send_item s1 e1 x s2 e2 y s3 p q r v s4 z s6) as (z' & s7 & Ez' & A7 & Sz' & Nz'); try assumption.
    exists z', s7. split; [exact Ez'|]. split; [|split; [exact Sz'|]].
    + eapply adds_trans; [exact A|]. eapply adds_trans; eassumption.
    + cbn [sliceable op_send o_fun]. auto.
  - (* first item *)
    intros F K re p r _ IH Bp E s1 e Fr D.
    destruct (dent_here _ _ "@" [re] ltac:(vm_compute; reflexivity) D) as (es & -> & Ds).
    apply dents1 in Ds. destruct Ds as (e1 & -> & D1).
    destruct (IH s1 e1 Fr D1) as (x & s2 & Ex & A & Sx & Nx).
    destruct (reaches_prepared at1 s1 e1 x s2 p eq_refl Ex Sx Bp) as (s3 & Px & A3).
    rewrite run_first in E by exact Bp.
    destruct (first_ends x s3 p r (stands_adds _ _ _ _ A3 Sx) E) as (z & s4 & Ez & A4 & Sz & Nz).
    exists z, s4. split; [|split; [|split; [exact Sz|]]].
    + eapply (evals_lambda1 "@" at1); [vm_compute; reflexivity|reflexivity|exact Px|exact Ez].
    + eapply adds_trans; [exact A|]. eapply adds_trans; eassumption.
    + assert (X : papp "@" [re] = TApp at1 [re]) by (vm_compute; reflexivity).
      rewrite X. cbn [sliceable at1 o_fun]. auto.
  - (* slice *)
    intros F K text re ri p t r It _ IH Sl _ IHi Bp E s1 e Fr D.
    destruct (slice_op_of text It) as (o & Fo & Lo & fo & w0 & mk & d & Ho & Hc & Hr).
    destruct (dent_papp _ _ text [re; ri] o Fo D) as (es & -> & Ds).
    apply dents2 in Ds. destruct Ds as (e1 & e2 & -> & D1 & D2).
    destruct (IH s1 e1 Fr D1) as (x & s2 & Ex & A & Sx & Nx). specialize (Nx Sl).
    destruct (reaches_prepared o s1 e1 x s2 p Lo Ex Sx Bp) as (s3 & Px & A3).
    pose proof (adds_trans _ _ _ A A3) as A13.
    destruct (IHi s3 e2 (frame_adds _ _ _ _ _ Fr A13) (adds_dent _ _ _ _ A13 D2)) as (y & s4 & Ey & A4 & Sy & _).
    destruct (reaches_prepared o s3 e2 y s4 (PScal t) Lo Ey Sy eq_refl) as (s5 & Py & A5).
    pose proof (stands_adds _ _ _ _ A5 Sy) as Sy5.
    pose proof (stands_adds _ _ _ _ (adds_trans _ _ _ A3 (adds_trans _ _ _ A4 A5)) Sx) as Sx5.
    rewrite (Hr _ _ _ Bp) in E.
    destruct (slice_ends o fo w0 mk d x y s5 p t r (Hc x y) Sx5 Nx Sy5 E) as (z & s6 & Ez & A6 & Sz & Nz).
    exists z, s6. split; [|split; [|split; [exact Sz|intros _; exact Nz]]].
    + eapply (evals_lambda2 text o); eassumption.
    + eapply adds_trans; [exact A13|]. eapply adds_trans; [exact A4|]. eapply adds_trans; eassumption.
  - (* rest *)
    intros F K re p r _ IH Sl Bp One E s1 e Fr D.
    destruct (dent_here _ _ "@>" [re] ltac:(vm_compute; reflexivity) D) as (es & -> & Ds).
    apply dents1 in Ds. destruct Ds as (e1 & -> & D1).
    destruct (IH s1 e1 Fr D1) as (x & s2 & Ex & A & Sx & Nx). specialize (Nx Sl).
    destruct (reaches_prepared right1 s1 e1 x s2 p eq_refl Ex Sx Bp) as (s3 & Px & A3).
    pose proof (adds_trans _ _ _ A A3) as A13.
    rewrite run_rest in E by exact Bp.
    assert (S1 : stands s3 (XR scalar_one) (PScal (s_ "1"))).
    { constructor. constructor.
      destruct (models_adds _ _ _ (fr_since _ _ _ _ Fr) A13) as (_ & _ & X). exact (X One). }
    destruct (rest_ends x s3 p r (stands_adds _ _ _ _ A3 Sx) Nx S1 E) as (z & s4 & Ez & A4 & Sz & Nz).
    exists z, s4. split; [|split; [|split; [exact Sz|intros _; exact Nz]]].
    + eapply (evals_lambda1 "@>" right1); [vm_compute; reflexivity|reflexivity|exact Px|exact Ez].
    + eapply adds_trans; eassumption.
  - (* recursion *)
    intros F K r q u0 _ IH _ [_ IHc] s1 e Fr D.
    destruct (dent_here _ _ "RE" [r] ltac:(vm_compute; reflexivity) D) as (es & -> & Ds).
    apply dents1 in Ds. destruct Ds as (e1 & -> & D1).
    destruct (lands_gives _ _ _ (IH s1 e1 Fr D1)) as (v & s2 & G & A & Dv).
    pose proof (frame_adds _ _ _ _ _ Fr A) as Fr2.
    destruct (fr_self _ _ _ _ Fr2) as (f & Rn & Df).
    destruct (IHc s2 f [v] (fr_since _ _ _ _ Fr2) Df) as (u & s3 & Cu & A2 & Du);
      [constructor; [exact Dv|constructor]|].
    eapply lands_value; [eapply evals_recurse; eassumption|eapply adds_trans; eassumption|exact Du].
  - (* call *)
    intros F K r h rs qs u0 _ IH _ IHs _ [[b ->] IHc] s1 e Fr D.
    inversion D as [| | |? es ? Ds| |]; subst. inversion Ds as [|e0 ? es' ? D0 Ds']; subst.
    destruct (IH s1 e0 Fr D0) as (x & s2 & E & A & L & _).
    pose proof (frame_adds _ _ _ _ _ Fr A) as Fr2.
    destruct (IHs s2 es' Fr2 (adds_dents _ _ _ _ A Ds')) as ((xs & s3 & n & Es & A2 & Rs) & _).
    destruct (evals_send s1 e0 x s2 es' xs s3 qs b u0 E A2 L (ex_intro _ n Es) Rs) as (v & s' & Ev & A3 & Dv).
    { intros s4 f vs A4 Df Dvs. apply (IHc s4 f vs); [|exact Df|exact Dvs].
      eapply models_adds; [exact (fr_since _ _ _ _ Fr2)|]. eapply adds_trans; eassumption. }
    eapply lands_value; [exact Ev| |exact Dv].
    eapply adds_trans; [exact A|]. eapply adds_trans; eassumption.
  - (* map *)
    intros F K r1 r2 h p l ws _ IH1 _ IH2 El _ [[b ->] IHc] s1 e Fr D.
    destruct (dent_here _ _ "M" [r1; r2] ltac:(vm_compute; reflexivity) D) as (es & -> & Ds).
    apply dents2 in Ds. destruct Ds as (e1 & e2 & -> & D1 & D2).
    destruct (lands_gives _ _ _ (IH1 s1 e1 Fr D1)) as (f & s2 & G1 & A1 & Df).
    destruct (lands_gives _ _ _ (IH2 s2 e2 (frame_adds _ _ _ _ _ Fr A1) (adds_dent _ _ _ _ A1 D2)))
      as (it & s3 & G2 & A2 & Di).
    destruct (iter_visits _ _ _ _ Di El) as (vs & s4 & I4 & A4 & Dvs & _).
    apply adv_only_adds in A4. pose proof (adds_trans _ _ _ A2 A4) as A24.
    destruct (IHc s4 f vs) as (us & s5 & Cs & A5 & Dus).
    { eapply models_adds; [exact (fr_since _ _ _ _ Fr)|]. eapply adds_trans; eassumption. }
    { eapply adds_den; [exact A24|exact Df]. }
    { exact Dvs. }
    assert (Ml : makes_list us s5 (HList (length (st_heap s5))) (set_heap (st_heap s5 ++ [OL us]) s5))
      by (split; reflexivity).
    destruct (listed_den _ _ _ _ _ Dus Ml) as [Du A6].
    eapply lands_value; [| |exact Du].
    + eapply evals_map with (f := f) (it := it) (s1 := s3) (vs := vs) (s2 := s4) (s3 := s5) (rs := us);
        try eassumption.
      * inversion Df; subst. eexists _, _. reflexivity.
      * econstructor; [exact G1|]. econstructor; [exact G2|constructor].
    + eapply adds_trans; [exact A1|]. eapply adds_trans; [exact A24|].
      eapply adds_trans; [exact A5|]. apply adv_only_adds. exact A6.
  - (* no operands *)
    intros F K s1 es Fr D. inversion D; subst. split.
    + exists [], s1, O. split; [reflexivity|]. split; [apply adds_refl|constructor].
    + exists [], s1. split; [constructor|]. split; [apply adds_refl|constructor].
  - (* operands *)
    intros F K r p rs ps _ IH _ IHs s1 es Fr D. inversion D as [|e ? es' ? D1 Ds]; subst. split.
    + destruct (IH s1 e Fr D1) as (x & s2 & [k E] & A & L & _).
      destruct (IHs s2 es' (frame_adds _ _ _ _ _ Fr A) (adds_dents _ _ _ _ A Ds))
        as ((xs & s3 & n & Es & A2 & Ls) & _).
      exists (x :: xs), s3, (max k n). split; [|split].
      * intros m Lm. cbn [map mmap eval_arg].
        rewrite (bind_step _ _ _ _ _ (more_eval k m _ _ _ ltac:(lia) E ltac:(discriminate))).
        rewrite (bind_step _ _ _ _ _ (Es m ltac:(lia))). reflexivity.
      * eapply adds_trans; eassumption.
      * constructor; [eapply stands_adds; eassumption|exact Ls].
    + destruct (lands_gives _ _ _ (IH s1 e Fr D1)) as (v & s2 & G & A & Dv).
      destruct (IHs s2 es' (frame_adds _ _ _ _ _ Fr A) (adds_dents _ _ _ _ A Ds))
        as (_ & vs & s3 & Os & A2 & Dvs).
      exists (v :: vs), s3. split; [econstructor; eassumption|].
      split; [eapply adds_trans; eassumption|]. constructor; [eapply adds_den; eassumption|exact Dvs].
  - (* function *)
    intros r args p _ IH. split; [eauto|]. intros s1 f vs Si Df Dvs.
    inversion Df as [| | | |sts e sts' r' Dn De|]; subst. inversion Dn; subst.
    destruct (call_runs [] e vs args s1 Dvs) as (s2 & En & Rn & Gc).
    pose proof (entered_heap _ _ _ _ En) as Hh. pose proof (entered_fmt _ _ _ _ En) as Fm.
    destruct En as ((sc & A1) & Bf & Hg & Ha & _).
    assert (Si2 : since s1 s2).
    { destruct A1 as (V & _ & _ & _ & _ & _ & _ & _ & _ & T & _). cbn in V, T.
      repeat split; assumption. }
    assert (Df2 : den (st_heap s2) (HBlock [] e) (PBlock [] r)) by (eapply since_den; eassumption).
    assert (Fr : frame w (PBlock [] r) (bound (PBlock [] r) args) s2).
    { split; [eapply models_since; eassumption| |exists (HBlock [] e); auto].
      intros c I. repeat (destruct I as [<-|I]); [..|destruct I].
      1-5: apply held_nth.
      - exact (Ha 0%nat _ eq_refl).
      - exact (Ha 1%nat _ eq_refl).
      - exact (Ha 2%nat _ eq_refl).
      - exact (Ha 3%nat _ eq_refl).
      - exact (Ha 4%nat _ eq_refl).
      - apply held_var. exists (HBlock [] e). split; [exact Bf|exact Df2].
      - apply held_var. exact Hg. }
    assert (De2 : dent (st_heap s2) e r).
    { pose proof (since_den _ _ _ _ Si2 Df) as X. inversion X; subst. assumption. }
    destruct (lands_gives _ _ _ (IH s2 e Fr De2)) as (v & s3 & G & A3 & Dv).
    assert (Sc : st_scopes s3 = sc :: st_scopes s1).
    { destruct A1 as (_ & Sc1 & _), A3 as (_ & Sc3 & _). rewrite Sc3, Sc1. reflexivity. }
    exists v, (set_scopes (st_scopes s1) (st_depth s3 - 1) s3). split; [|split].
    + apply Gc. exists s2, s3. split; [exists O; reflexivity|]. split; [exact G|].
      exists sc, (st_scopes s1). split; [exact Sc|reflexivity].
    + pose proof (adds_trans _ _ _ A1 A3) as A4. clear - A4. unfold only_adds in *. cbn in *.
      destruct A4 as (H1 & H2 & H3 & H4 & H5 & H6 & H7 & H8 & H9 & H10 & H11 & H12).
      repeat (split; [first [assumption|reflexivity|lia]|]). assumption.
    + exact Dv.
  - (* no calls *)
    intros r. split; [eauto|]. intros s1 f vs Si Df Dvs. inversion Dvs; subst.
    exists [], s1. split; [constructor|]. split; [apply adds_refl|constructor].
  - (* calls *)
    intros F p u0 ps ws _ [Hb IH] _ [_ IHs]. split; [exact Hb|]. intros s1 f vs Si Df Dvs.
    inversion Dvs as [|v ? vs' ? Dv Dvs']; subst.
    destruct (IH s1 f [v] Si Df) as (u & s2 & C & A & Du); [constructor; [exact Dv|constructor]|].
    destruct (IHs s2 f vs') as (us & s3 & Cs & A2 & Dus).
    { eapply models_adds; eassumption. }
    { eapply adds_den; eassumption. }
    { eapply adds_dens; eassumption. }
    exists (u :: us), s3. split; [econstructor; eassumption|].
    split; [eapply adds_trans; eassumption|]. constructor; [eapply adds_den; eassumption|exact Dus].
Qed.

Theorem function_called s f b :
  den (st_heap s) f (PBlock [] b) -> computes s f (fun args p => called (setting_of s) (PBlock [] b) args p).
Proof.
  intros D s1 vs ps p A Dv C. destruct (values_reached (setting_of s)) as (_ & _ & H & _).
  destruct (H _ _ _ C) as [_ X]. apply (X s1 f vs); [eapply models_adds; [apply models_setting|exact A]| |exact Dv].
  eapply adds_den; eassumption.
Qed.

Theorem called_unique s F args p q : called (setting_of s) F args p -> called (setting_of s) F args q -> p = q.
Proof.
  intros C1 C2. inversion C1 as [b a p' _]; subst.
  destruct (yields_fresh (PBlock [] b) s) as (f & s1 & _ & A1 & Df).
  destruct (yields_fresh_all args s1) as (vs & s2 & _ & A2 & Dv).
  apply adv_only_adds in A1. apply adv_only_adds in A2.
  destruct (values_reached (setting_of s)) as (_ & _ & H & _).
  assert (Si : models s2 (setting_of s)) by (eapply models_adds; [apply models_setting|]; eapply adds_trans; eassumption).
  pose proof (adds_den _ _ _ _ A2 Df) as Df2.
  destruct (H _ _ _ C1) as [_ X]. destruct (X s2 f vs Si Df2 Dv) as (v & s3 & Cv & _ & D1).
  destruct (H _ _ _ C2) as [_ Y]. destruct (Y s2 f vs Si Df2 Dv) as (w & s4 & Cw & _ & D2).
  destruct (ends_fun _ _ _ _ _ _ (steady_call f vs) Cv Cw) as [-> ->].
  eapply den_fun; eassumption.
Qed.

Theorem expression_value s F L e r p :
  inside s F L -> dent (st_heap s) e r -> has_value (setting_of s) F L r p ->
  exists v s', gives s e v s' /\ den (st_heap s') v p /\ only_adds s s'.
Proof.
  intros [Lc Rn] D H. destruct (values_reached (setting_of s)) as (V & _).
  assert (Fr : frame (setting_of s) F L s) by (split; [apply models_setting|exact Lc|exact Rn]).
  destruct (lands_gives _ _ _ (V _ _ _ _ H s e Fr D)) as (v & s' & G & A & Dv). eauto.
Qed.
Theorem expression_unique s F L e r p q :
  inside s F L -> dent (st_heap s) e r -> has_value (setting_of s) F L r p -> has_value (setting_of s) F L r q -> p = q.
Proof.
  intros I D H1 H2. destruct (expression_value _ _ _ _ _ _ I D H1) as (v & s1 & [n1 G1] & D1 & A1).
  destruct (expression_value _ _ _ _ _ _ I D H2) as (w & s2 & [n2 G2] & D2 & A2).
  pose proof (more_rval n1 (max n1 n2) _ _ _ ltac:(lia) G1 ltac:(discriminate)) as X1.
  pose proof (more_rval n2 (max n1 n2) _ _ _ ltac:(lia) G2 ltac:(discriminate)) as X2.
  rewrite X1 in X2. injection X2 as <- <-. eapply den_fun; eassumption.
Qed.

Lemma papp_dent h text e r es rs :
  (exists o, op_by_arity (S (length rs)) (s_ text) = Some o) ->
  dent h e r -> dents h es rs -> dent h (app text (e :: es)) (papp text (r :: rs)).
Proof.
  intros [o Fo] D Ds. unfold app, papp. cbn [length]. rewrite (dents_length _ _ _ Ds), Fo.
  constructor. constructor; assumption.
Qed.
Ltac looked_up := eexists; vm_compute; reflexivity.
Theorem item_value s F L e re i ri p q r :
  inside s F L -> dent (st_heap s) e re -> dent (st_heap s) i ri ->
  has_value (setting_of s) F L re p -> has_value (setting_of s) F L ri q -> is_block p = false -> index_of p q ->
  snd (run_op (st_fmt s) "@" [p; q]) = Val r ->
  (exists v s', gives s (app "@" [e; i]) v s' /\ den (st_heap s') v r /\ only_adds s s') /\
  (exists v s', gives s (TApp op_send [e; i]) v s' /\ den (st_heap s') v r /\ only_adds s s').
Proof.
  intros I De Di He Hi B Iq E. split.
  - apply (expression_value s F L _ (papp "@" [re; ri])); [exact I| |eapply hv_item; eassumption].
    apply papp_dent; [looked_up|exact De|constructor; [exact Di|constructor]].
  - apply (expression_value s F L _ (TApp op_send [re; ri])); [exact I| |eapply hv_send; eassumption].
    repeat (constructor; try assumption).
Qed.
Theorem slice_value s F L text e re i ri p t r :
  In text ["@<"; "@>"; "H"; "S"] ->
  inside s F L -> dent (st_heap s) e re -> dent (st_heap s) i ri ->
  has_value (setting_of s) F L re p -> has_value (setting_of s) F L ri (PScal t) -> is_block p = false -> sliceable re = true ->
  snd (run_op (st_fmt s) text [p; PScal t]) = Val r ->
  exists v s', gives s (app text [e; i]) v s' /\ den (st_heap s') v r /\ only_adds s s'.
Proof.
  intros It I De Di He Hi B Sl E.
  apply (expression_value s F L _ (papp text [re; ri])); [exact I| |eapply hv_slice; eassumption].
  destruct (slice_op_of text It) as (o & Fo & _).
  apply papp_dent; [exists o; exact Fo|exact De|constructor; [exact Di|constructor]].
Qed.

(** Every call gets to such a place. *)
Theorem call_inside s e r args ps :
  den (st_heap s) (HBlock [] e) (PBlock [] r) -> dens (st_heap s) args ps ->
  exists s1, entered s (HBlock [] e) ps s1 /\ inside s1 (PBlock [] r) (bound (PBlock [] r) ps).
Proof.
  intros Df Dvs. destruct (call_runs [] e args ps s Dvs) as (s2 & En & Rn & Gc). exists s2. split; [exact En|].
  destruct En as ((sc & A1) & Bf & Hg & Ha & _).
  assert (Si2 : since s s2).
  { destruct A1 as (V & _ & _ & _ & _ & _ & _ & _ & FM & T & _ & Hh & _). cbn in V, T, FM, Hh.
    repeat split; assumption. }
  assert (Df2 : den (st_heap s2) (HBlock [] e) (PBlock [] r)) by (eapply since_den; eassumption).
  split; [|exists (HBlock [] e); auto].
  intros c I. repeat (destruct I as [<-|I]); [..|destruct I].
  1-5: apply held_nth.
  - exact (Ha 0%nat _ eq_refl).
  - exact (Ha 1%nat _ eq_refl).
  - exact (Ha 2%nat _ eq_refl).
  - exact (Ha 3%nat _ eq_refl).
  - exact (Ha 4%nat _ eq_refl).
  - apply held_var. exists (HBlock [] e). split; [exact Bf|exact Df2].
  - apply held_var. exact Hg.
Qed.
