(** * Operators that change a variable: ++, --, PU, PB, PO, DQ *)

From Coq Require Import String List NArith ZArith Bool Arith Lia.
From Verif Require Import PyStr PyRe PyNum Tokens OpFun OpTable Unparse
                          PTypes Ops OpsSeq Apply Spec StrFacts PFacts SeqProof ItemProof RunOp
                          NumProof
                          Heap Exec SpecHeap HeapProof ExecRel ExecInv EvalProof
                          SpecScan SpecVars VarProof PureProof.
Import ListNotations.
Local Open Scope string_scope.
Local Open Scope list_scope.
Local Open Scope Z_scope.

Definition the_op (n : nat) (text : string) : oper :=
  match op_by_arity n (s_ text) with Some o => o | None => op_chain end.

(** The result of an operator is the variable itself. *)
Lemma name_result s e x s' p :
  evals s e (XL (LName x [] None)) s' -> ordinary s' x -> var s' x p ->
  exists w s'', gives s e w s'' /\ den (st_heap s'') w p /\ adv s' s''.
Proof.
  intros E O V. destruct (get_name_ok s' x p O V) as (w & s2 & E2 & A & D & _).
  exists w, s2. split; [apply gives_evals; eauto|]. auto.
Qed.

(** Only [x] changes, and nothing is read or printed. *)
Definition chg (x : str) (s s' : state) : Prop :=
  moved [x] s s' /\ st_in s' = st_in s /\ st_out s' = st_out s.
Lemma chg_trans x s1 s2 s3 : chg x s1 s2 -> chg x s2 s3 -> chg x s1 s3.
Proof.
  intros (M1 & I1 & O1) (M2 & I2 & O2).
  split; [eapply moved_trans; eassumption|]. split; congruence.
Qed.
Lemma adv_chg x s s' : adv s s' -> chg x s s'.
Proof.
  intros A. split; [apply adv_moved; exact A|]. destruct A as (t & d & ->). split; reflexivity.
Qed.
Lemma rebound_chg x v s s' : rebound x v s s' -> chg x s s'.
Proof.
  intros R. split; [eapply rebound_moved; [left; reflexivity|exact R]|]. destruct R; split; reflexivity.
Qed.
Lemma chg_den x s s' v p : chg x s s' -> den (st_heap s) v p -> den (st_heap s') v p.
Proof. intros [C _]. exact (moved_den _ _ _ _ _ C). Qed.
Lemma chg_ordinary x s s' y : chg x s s' -> ordinary s y -> ordinary s' y.
Proof. intros [C _]. exact (moved_ordinary _ _ _ _ C). Qed.
Lemma chg_scopes x s s' : chg x s s' -> st_scopes s <> [] -> st_scopes s' <> [].
Proof. intros [C _]. apply C. Qed.

(** Storing a computed object in [x]. *)
Lemma store_ok {A} (m : M hval) (k : M A) s x (a : A) p :
  ordinary s x -> st_scopes s <> [] ->
  yields m s (fun v s' => den (st_heap s') v p) ->
  (forall s', k s' = Ok a s') ->
  exists s', (v <- m;; assign (LName x [] None) v;; k) s = Ok a s' /\
    chg x s s' /\ var s' x p.
Proof.
  intros O NS (v & s1 & E1 & A1 & D1) K.
  destruct (assign_fresh x v s1) as (s2 & E2 & Rb).
  { exact (adv_ordinary _ _ _ A1 O). }
  { rewrite (adv_scopes _ _ A1). exact NS. }
  exists s2. rewrite (bind_step _ _ _ _ _ E1), (bind_step _ _ _ _ _ E2).
  split; [apply K|]. split.
  - eapply chg_trans; [apply adv_chg; exact A1|]. eapply rebound_chg; exact Rb.
  - eapply rebound_var; eassumption.
Qed.

Lemma moved_changes x s s' : chg x s s' -> changes_only x s s'.
Proof.
  intros (Mv & I & Ot). split; [|split; assumption].
  intros y q N V. eapply moved_var; [exact Mv|intros [<-|[]]; congruence|exact V].
Qed.
Lemma adv_changes x s s1 s2 : changes_only x s s1 -> adv s1 s2 -> changes_only x s s2.
Proof.
  intros (C & I & Ot) A. destruct (adv_chg x s1 s2 A) as (_ & I2 & O2).
  split; [|split; congruence]. intros y q N V. exact (adv_var _ _ _ _ A (C y q N V)).
Qed.
Lemma changes_trans x s1 s2 s3 : changes_only x s1 s2 -> changes_only x s2 s3 -> changes_only x s1 s3.
Proof.
  intros (C1 & I1 & O1) (C2 & I2 & O2). split; [auto|]. split; congruence.
Qed.

(** Finishing: the expression gave the variable, changed to [p]. *)
Lemma changed_name s e x s1 p s0 :
  evals s e (XL (LName x [] None)) s1 -> ordinary s1 x -> chg x s0 s1 -> var s1 x p ->
  st_scopes s0 <> [] ->
  exists w s', gives s e w s' /\ den (st_heap s') w p /\ var s' x p /\
    changes_only x s0 s' /\ st_scopes s' <> [].
Proof.
  intros E O Mv V NS. destruct (name_result s e x s1 p E O V) as (w & s2 & G & D & A).
  exists w, s2. split; [exact G|]. split; [exact D|]. split; [exact (adv_var _ _ _ _ A V)|].
  split; [exact (adv_changes _ _ _ _ (moved_changes _ _ _ Mv) A)|].
  rewrite (adv_scopes _ _ A). exact (chg_scopes _ _ _ Mv NS).
Qed.

(** ** Operands of these operators: evaluated, and looked at for being a Block *)

Definition lambda_vals (o : oper) : bool :=
  negb (o_assign o) && negb (o_map o) && negb (o_fold o) && negb (o_scan o)
  && negb (f_rvals (o_flags o)) && f_vals (o_flags o)
  && f_in_lambda (o_flags o) && negb (f_list_each (o_flags o))
  && negb (f_range_each (o_flags o)).

Lemma den_block h v p : den h v p -> h_block v = is_block p.
Proof. intros D. inversion D; reflexivity. Qed.

Definition look (x : xval) : M bool :=
  match x with
  | XL lv => v <- get_lval lv;; mret (h_block v)
  | _ => mret (x_block x)
  end.

Lemma prepare_look R fl a x s s1 b s2 :
  f_rvals fl = false -> f_vals fl = true -> f_in_lambda fl = true ->
  f_list_each fl = false -> f_range_each fl = false ->
  eval_arg R a s = Ok x s1 -> look x s1 = Ok b s2 ->
  prepare R fl a s = Ok (AVal x, b) s2.
Proof.
  intros E1 E2 E3 E4 E5 E L. unfold prepare. rewrite E1, E2. cbn [orb].
  rewrite (bind_step _ _ _ _ _ E). rewrite expands_none by assumption. rewrite E3.
  destruct x as [w|lv|l]; cbn [look] in L.
  - injection L as <- <-. reflexivity.
  - apply bind_ok in L. destruct L as (v & s3 & E6 & L). injection L as <- <-.
    rewrite (bind_step _ _ _ _ _ E6). reflexivity.
  - injection L as <- <-. reflexivity.
Qed.
Lemma look_ok x p s :
  readable x p s -> is_block p = false -> yields (look x) s (fun b _ => b = false).
Proof.
  intros Rd NB. destruct (Rd s (adv_refl _)) as (v & s2 & E6 & A & D).
  destruct x as [w|lv|l]; cbn [rval_h] in E6; cbn [look].
  - injection E6 as -> ->. apply yields_ret. cbn [x_block].
    rewrite <- NB, <- (den_block _ _ _ D). destruct v; reflexivity.
  - exists false, s2. rewrite (bind_step _ _ _ _ _ E6).
    rewrite (den_block _ _ _ D), NB. split; [reflexivity|]. auto.
  - apply yields_ret. reflexivity.
Qed.

Lemma eval_op_lam R o args xs s s' :
  lambda_vals o = true ->
  mmap (prepare R (o_flags o)) args s = Ok (map (fun x => (AVal x, false)) xs) s' ->
  eval_op R o args s = catch_type (call_fun R (o_fun o) (map AVal xs)) s'.
Proof.
  intros P E. unfold lambda_vals in P. split_flags P. unfold eval_op.
  repeat match goal with A : o_assign _ = _ |- _ => rewrite A; clear A
                       | A : o_map _ = _ |- _ => rewrite A; clear A
                       | A : o_fold _ = _ |- _ => rewrite A; clear A
                       | A : o_scan _ = _ |- _ => rewrite A; clear A end.
  rewrite (bind_step _ _ _ _ _ E). rewrite map_map. cbn [fst].
  assert (F : existsb snd (map (fun x : xval => (AVal x, false)) xs) = false).
  { clear. induction xs; auto. }
  rewrite F, apply_plain by assumption. reflexivity.
Qed.

Lemma more_fun n m f l s r s' :
  (n <= m)%nat -> call_fun (run n) f l s = Ok r s' -> call_fun (run m) f l s = Ok r s'.
Proof.
  intros L E. destruct (r_call_fun le_fuel le_fuel_closed _ _ (run_le_fuel_le n m L) f l s); congruence.
Qed.

Lemma evals_lam1 s o a x s1 p :
  lambda_vals o = true ->
  evals s a x s1 -> readable x p s1 -> is_block p = false ->
  exists s2, adv s1 s2 /\
    (forall r s' n, call_fun (run n) (o_fun o) [AVal x] s2 = Ok r s' ->
     evals s (TApp o [a]) r s').
Proof.
  intros P [k E] Rd NB. destruct (look_ok x p s1 Rd NB) as (b & s2 & L & A & ->).
  exists s2. split; [exact A|]. intros r s' n C. apply evals_app. exists (max k n).
  rewrite (eval_op_lam _ o _ [x] s s2 P).
  - apply (proj2 (catch_ok _ _ _ _)). apply (more_fun n); [lia|exact C].
  - unfold lambda_vals in P. split_flags P. cbn [map mmap].
    assert (Q : prepare (run (max k n)) (o_flags o) (ATree a) s = Ok (AVal x, false) s2).
    { eapply prepare_look; try eassumption.
      exact (more_eval k (max k n) _ _ _ ltac:(lia) E ltac:(discriminate)). }
    rewrite (bind_step _ _ _ _ _ Q). reflexivity.
Qed.

Lemma evals_lam2 s o a b x s1 p :
  lambda_vals o = true ->
  evals s a x s1 -> readable x p s1 -> is_block p = false ->
  exists s2, adv s1 s2 /\
    forall y s3 q, evals s2 b y s3 -> readable y q s3 -> is_block q = false ->
    exists s4, adv s3 s4 /\
    (forall r s' n, call_fun (run n) (o_fun o) [AVal x; AVal y] s4 = Ok r s' ->
     evals s (TApp o [a; b]) r s').
Proof.
  intros P [k E] Rd NB. destruct (look_ok x p s1 Rd NB) as (bb & s2 & L & A & ->).
  exists s2. split; [exact A|]. intros y s3 q [k2 E2] Rd2 NB2.
  destruct (look_ok y q s3 Rd2 NB2) as (bb & s4 & L2 & A2 & ->).
  exists s4. split; [exact A2|]. intros r s' n C. apply evals_app. exists (max k (max k2 n)).
  rewrite (eval_op_lam _ o _ [x; y] s s4 P).
  - apply (proj2 (catch_ok _ _ _ _)). apply (more_fun n); [lia|exact C].
  - unfold lambda_vals in P. split_flags P. cbn [map mmap].
    assert (Q : prepare (run (max k (max k2 n))) (o_flags o) (ATree a) s = Ok (AVal x, false) s2).
    { eapply prepare_look; try eassumption.
      exact (more_eval k (max k (max k2 n)) _ _ _ ltac:(lia) E ltac:(discriminate)). }
    assert (Q2 : prepare (run (max k (max k2 n))) (o_flags o) (ATree b) s2 = Ok (AVal y, false) s4).
    { eapply prepare_look; try eassumption.
      exact (more_eval k2 (max k (max k2 n)) _ _ _ ltac:(lia) E2 ltac:(discriminate)). }
    rewrite (bind_step _ _ _ _ _ Q). rewrite (bind_step _ _ _ [(AVal y, false)] s4); [reflexivity|].
    rewrite (bind_step _ _ _ _ _ Q2). reflexivity.
Qed.

Lemma name_readable s x p : ordinary s x -> var s x p -> readable (XL (LName x [] None)) p s.
Proof.
  intros O V s1 A. cbn [rval_h].
  destruct (get_name_ok s1 x p (adv_ordinary _ _ _ A O) (adv_var _ _ _ _ A V))
      as (v & s2 & E & A2 & D & _).
  exists v, s2. auto.
Qed.

(** ** Increment and decrement *)

Lemma one_numeral : numeral false [1%N] = s_ "1".
Proof. reflexivity. Qed.
Lemma one_decimal : decimal [1%N].
Proof. split; [discriminate|]. constructor; [reflexivity|constructor]. Qed.

Lemma op_values o vs ps s r :
  value_op o (length vs) -> dens (st_heap s) vs ps ->
  snd (apply_op (st_fmt s) o ps) = Val r ->
  exists n u s2, i_op (run n) o (map arg_of vs) s = Ok (XR u) s2 /\ adv s s2
    /\ den (st_heap s2) u r.
Proof.
  intros Vo Ds E. unfold apply_op in E.
  set (d := S (fold_right (fun v n => (pdepth v + n)%nat) O ps)) in E.
  pose proof (eval_op_follows o d d vs ps s ltac:(lia) Vo Ds) as F. unfold follows in F.
  rewrite E in F. destruct F as (y & s2 & E2 & A2 & u & -> & D2).
  exists (S d), u, s2. split; [exact E2|auto].
Qed.

Lemma step_ok (o : oper) w s x p r :
  ordinary s x -> st_scopes s <> [] -> var s x p ->
  nth_error (st_heap s) loc_one = Some (OS (s_ "1")) ->
  value_op o 2 -> snd (apply_op (st_fmt s) o [p; PScal (s_ "1")]) = Val r ->
  exists n s', INC (run n) w o (XL (LName x [] None)) s = Ok (XL (LName x [] None)) s' /\
    chg x s s' /\ var s' x r.
Proof.
  intros O NS V One Vo E. unfold INC.
  destruct (get_name_ok s x p O V) as (v & s1 & E1 & A1 & D1 & _).
  assert (Ds : dens (st_heap s1) [v; scalar_one] [p; PScal (s_ "1")]).
  { constructor; [exact D1|]. constructor; [|constructor].
    apply (adv_den _ _ _ _ A1). constructor. exact One. }
  assert (Ex : exists n u s2, i_op (run n) o [AVal (XR v); AVal (XR scalar_one)] s1 = Ok (XR u) s2
     /\ adv s1 s2 /\ den (st_heap s2) u r).
  { destruct (op_values o [v; scalar_one] [p; PScal (s_ "1")] s1 r Vo Ds) as (n & u & s2 & H).
    { rewrite (adv_fmt _ _ A1). exact E. }
    exists n, u, s2. exact H. }
  destruct Ex as (n & u & s2 & E2 & A2 & D2). exists n.
  cbn [rval_h]. rewrite (bind_step _ _ _ _ _ E1). rewrite (bind_step _ _ _ _ _ E2).
  assert (A : adv s s2) by (eapply adv_trans; eassumption).
  destruct (store_ok (mret u) (mret (XL (LName x [] None))) s2 x (XL (LName x [] None)) r)
    as (s3 & E3 & Mv & V3).
  - exact (adv_ordinary _ _ _ A O).
  - rewrite (adv_scopes _ _ A). exact NS.
  - apply yields_ret. exact D2.
  - reflexivity.
  - exists s3. split; [exact E3|]. split; [|exact V3].
    eapply chg_trans; [apply adv_chg; exact A|exact Mv].
Qed.
Lemma inc_general (text : string) (o : oper) w s x p r :
  (exists op, op_by_arity 1 (s_ text) = Some op /\ lambda_vals op = true /\
     forall R a, call_fun R (o_fun op) [AVal a] = INC R w o a) ->
  ordinary s x -> st_scopes s <> [] -> var s x p -> is_block p = false ->
  nth_error (st_heap s) loc_one = Some (OS (s_ "1")) ->
  value_op o 2 -> snd (apply_op (st_fmt s) o [p; PScal (s_ "1")]) = Val r ->
  exists v s', gives s (app text [name x]) v s' /\ den (st_heap s') v r /\
    var s' x r /\ changes_only x s s' /\ st_scopes s' <> [].
Proof.
  intros (op & Fo & P & C) O NS V NB One Vo E.
  destruct (evals_lam1 s op (name x) (XL (LName x [] None)) s p P) as (s0 & A0 & K).
  { apply evals_name; auto. }
  { apply name_readable; assumption. }
  { exact NB. }
  destruct (step_ok o w s0 x p r) as (n & s1 & E1 & Mv & V1); try assumption.
  { exact (adv_ordinary _ _ _ A0 O). }
  { rewrite (adv_scopes _ _ A0). exact NS. }
  { exact (adv_var _ _ _ _ A0 V). }
  { destruct A0 as (t & d & ->).
    change (nth_error (st_heap s ++ t) loc_one = Some (OS (s_ "1"))).
    rewrite nth_error_app1; [exact One|]. apply nth_error_Some. rewrite One. discriminate. }
  { rewrite (adv_fmt _ _ A0). exact E. }
  assert (Mv0 : chg x s s1) by (eapply chg_trans; [apply adv_chg; exact A0|exact Mv]).
  apply (changed_name s (app text [name x]) x s1 r s).
  - unfold app. cbn [length]. rewrite Fo. apply (K _ _ n). rewrite C. exact E1.
  - exact (chg_ordinary _ _ _ _ Mv0 O).
  - exact Mv0.
  - exact V1.
  - exact NS.
Qed.

(** ++x is x with 1 added, whatever + does on its value; likewise --x. *)
Theorem inc_name s x p r :
  ordinary s x -> st_scopes s <> [] -> var s x p -> is_block p = false ->
  nth_error (st_heap s) loc_one = Some (OS (s_ "1")) ->
  snd (run_op (st_fmt s) "+" [p; PScal (s_ "1")]) = Val r ->
  exists v s', gives s (app "++" [name x]) v s' /\ den (st_heap s') v r /\
    var s' x r /\ changes_only x s s' /\ st_scopes s' <> [].
Proof.
  intros O NS V NB One E.
  apply (inc_general "++" op_plus "INC" s x p); try assumption.
  - eexists. split; [reflexivity|]. split; reflexivity.
  - constructor; reflexivity.
Qed.
Theorem dec_name s x p r :
  ordinary s x -> st_scopes s <> [] -> var s x p -> is_block p = false ->
  nth_error (st_heap s) loc_one = Some (OS (s_ "1")) ->
  snd (run_op (st_fmt s) "-" [p; PScal (s_ "1")]) = Val r ->
  exists v s', gives s (app "--" [name x]) v s' /\ den (st_heap s') v r /\
    var s' x r /\ changes_only x s s' /\ st_scopes s' <> [].
Proof.
  intros O NS V NB One E.
  apply (inc_general "--" op_minus "DEC" s x p); try assumption.
  - eexists. split; [reflexivity|]. split; reflexivity.
  - constructor; reflexivity.
Qed.

Theorem inc_integer s x neg ds :
  ordinary s x -> st_scopes s <> [] -> decimal ds -> var s x (PScal (numeral neg ds)) ->
  nth_error (st_heap s) loc_one = Some (OS (s_ "1")) ->
  exists v s', gives s (app "++" [name x]) v s' /\
    den (st_heap s') v (scal_Z (numeral_value neg ds + 1)) /\
    var s' x (scal_Z (numeral_value neg ds + 1)) /\ changes_only x s s' /\ st_scopes s' <> [].
Proof.
  intros O NS Dc V One. apply (inc_name s x _ _ O NS V eq_refl One).
  rewrite <- one_numeral, plus_numeral by (exact Dc || exact one_decimal). reflexivity.
Qed.
Theorem dec_integer s x neg ds :
  ordinary s x -> st_scopes s <> [] -> decimal ds -> var s x (PScal (numeral neg ds)) ->
  nth_error (st_heap s) loc_one = Some (OS (s_ "1")) ->
  exists v s', gives s (app "--" [name x]) v s' /\
    den (st_heap s') v (scal_Z (numeral_value neg ds - 1)) /\
    var s' x (scal_Z (numeral_value neg ds - 1)) /\ changes_only x s s' /\ st_scopes s' <> [].
Proof.
  intros O NS Dc V One. apply (dec_name s x _ _ O NS V eq_refl One).
  rewrite <- one_numeral, minus_numeral by (exact Dc || exact one_decimal). reflexivity.
Qed.

(** ** Adding to a list *)

Lemma push_ok (back : bool) w s x y v s1 p ps :
  rval_h y s = Ok v s1 -> den (st_heap s1) v p -> ordinary s1 x -> st_scopes s1 <> [] ->
  var s1 x (PList ps) ->
  exists s', PUSH_with w back (XL (LName x [] None)) y s = Ok (XL (LName x [] None)) s' /\
    chg x s1 s' /\ var s' x (PList (if back then ps ++ [p] else p :: ps)).
Proof.
  intros Ey Dv O NS V. unfold PUSH_with. rewrite (bind_step _ _ _ _ _ Ey).
  destruct (get_name_ok s1 x _ O V) as (l & s2 & E2 & A2 & D2 & _). cbn [rval_h].
  rewrite (bind_step _ _ _ _ _ E2).
  rewrite (bind_step _ _ _ _ _ (dread_ok _ _ _ (adv_den _ _ _ _ A2 Dv))).
  rewrite (bind_step _ _ _ _ _ (dread_ok _ _ _ D2)).
  unfold get_fmt at 1. unfold mbind at 1.
  assert (Hl : exists a, l = HList a) by (inversion D2; eauto). destruct Hl as [a ->].
  assert (Eq : (if back then op_APPENDELEM (PList ps) p else op_PREPENDELEM (PList ps) p)
               = ret (PList (if back then ps ++ [p] else p :: ps))) by (destruct back; reflexivity).
  rewrite Eq.
  destruct (store_ok (p0 <- of_pm (ret (PList (if back then ps ++ [p] else p :: ps)));; fresh p0)
              (mret (XL (LName x [] None))) s2 x (XL (LName x [] None))
              (PList (if back then ps ++ [p] else p :: ps))) as (s3 & E3 & Mv & V3).
  - exact (adv_ordinary _ _ _ A2 O).
  - rewrite (adv_scopes _ _ A2). exact NS.
  - destruct (yields_fresh (PList (if back then ps ++ [p] else p :: ps)) s2) as (u & s3 & E3 & A3 & D3).
    exists u, s3. split; [exact E3|auto].
  - reflexivity.
  - exists s3. split; [exact E3|]. split; [|exact V3].
    eapply chg_trans; [apply adv_chg; exact A2|exact Mv].
Qed.

Lemma push_general (text : string) (back : bool) w s x e p ps :
  (exists op, op_by_arity 2 (s_ text) = Some op /\ lambda_vals op = true /\
     forall R a b, call_fun R (o_fun op) [AVal a; AVal b] = PUSH_with w back a b) ->
  ordinary s x -> st_scopes s <> [] -> var s x (PList ps) ->
  means s e p -> is_block p = false ->
  exists u s', gives s (app text [name x; e]) u s' /\
    den (st_heap s') u (PList (if back then ps ++ [p] else p :: ps)) /\
    var s' x (PList (if back then ps ++ [p] else p :: ps)) /\
    changes_only x s s' /\ st_scopes s' <> [].
Proof.
  intros (op & Fo & P & C) O NS V Me NB.
  destruct (evals_lam2 s op (name x) e (XL (LName x [] None)) s (PList ps) P) as (s0 & A0 & K).
  { apply evals_name; auto. }
  { apply name_readable; assumption. }
  { reflexivity. }
  destruct (means_reads s e p Me s0 A0) as (y & s1 & Ee & A1 & Rd).
  destruct (K y s1 p Ee Rd NB) as (s2 & A2 & K2).
  destruct (Rd s2 A2) as (v & s3 & Ey & A3 & D).
  assert (A : adv s s3) by eauto using adv_trans.
  destruct (push_ok back w s2 x y v s3 p ps Ey D) as (s4 & E4 & Mv & V4).
  { exact (adv_ordinary _ _ _ A O). }
  { rewrite (adv_scopes _ _ A). exact NS. }
  { exact (adv_var _ _ _ _ A V). }
  assert (Mv0 : chg x s s4) by (eapply chg_trans; [apply adv_chg; exact A|exact Mv]).
  apply (changed_name s (app text [name x; e]) x s4 _ s).
  - unfold app. cbn [length]. rewrite Fo. apply (K2 _ _ 0%nat). rewrite C. exact E4.
  - exact (chg_ordinary _ _ _ _ Mv0 O).
  - exact Mv0.
  - exact V4.
  - exact NS.
Qed.

Theorem push_front s x e p ps :
  ordinary s x -> st_scopes s <> [] -> var s x (PList ps) -> means s e p -> is_block p = false ->
  exists u s', gives s (app "PU" [name x; e]) u s' /\ den (st_heap s') u (PList (p :: ps)) /\
    var s' x (PList (p :: ps)) /\ changes_only x s s' /\ st_scopes s' <> [].
Proof.
  apply (push_general "PU" false "PUSH").
  eexists. split; [reflexivity|]. split; reflexivity.
Qed.
Theorem push_back s x e p ps :
  ordinary s x -> st_scopes s <> [] -> var s x (PList ps) -> means s e p -> is_block p = false ->
  exists u s', gives s (app "PB" [name x; e]) u s' /\ den (st_heap s') u (PList (ps ++ [p])) /\
    var s' x (PList (ps ++ [p])) /\ changes_only x s s' /\ st_scopes s' <> [].
Proof.
  apply (push_general "PB" true "PUSHBACK").
  eexists. split; [reflexivity|]. split; reflexivity.
Qed.

(** ** Removing from a list *)

Lemma bind_assoc {A B C} (m : M A) (f : A -> M B) (g : B -> M C) s :
  mbind (mbind m f) g s = mbind m (fun a => mbind (f a) g) s.
Proof. unfold mbind. destruct (m s); reflexivity. Qed.

Lemma take_ok w x s i a b it rest p ps items prest :
  ordinary s x -> st_scopes s <> [] ->
  (forall l, nth_error (st_heap s) l = Some (OL items) ->
  seq_index items i = Some it -> seq_slice items a b = Some rest -> items <> [] ->
  dens (st_heap s) items ps -> den (st_heap s) it p -> dens (st_heap s) rest prest ->
  exists s', take_end w (XL (LName x [] None)) (HList l) (IInt i) (ISlice a b) s = Ok (XR it) s' /\
    chg x s s' /\ var s' x (PList prest) /\ den (st_heap s') it p).
Proof.
  intros O NS l N Ix Sl NE Ds Di Dr. unfold take_end.
  pose proof (yields_load_list l items s N) as (x1 & s1 & El & _ & -> & ->).
  assert (Z : (zlen items =? 0) = false).
  { destruct items; [contradiction|]. unfold zlen. cbn [length]. apply Z.eqb_neq. lia. }
  assert (E1 : h_len (HList l) s = Ok (Some (zlen items)) s).
  { cbn [h_len]. rewrite (bind_step _ _ _ _ _ El). reflexivity. }
  assert (E2 : h_index (HList l) (IInt i) s = Ok (Some it) s).
  { cbn [h_index]. rewrite (bind_step _ _ _ _ _ El). rewrite Ix. reflexivity. }
  rewrite (bind_step _ _ _ _ _ E1). rewrite Z. rewrite (bind_step _ _ _ _ _ E2).
  cbn [some_item]. rewrite (bind_step _ _ _ it s eq_refl).
  assert (Y : yields (r <- h_index (HList l) (ISlice a b);; some_item r) s
                (fun v s' => den (st_heap s') v (PList prest))).
  { eapply yields_bind with (Q := fun o s' => exists v, o = Some v /\ den (st_heap s') v (PList prest)).
    - cbn [h_index]. eapply yields_bind; [apply yields_load_list; exact N|]. intros its s' A [-> ->].
      destruct items as [|it0 its]; [contradiction|]. rewrite Sl.
      eapply yields_bind; [apply yields_copies; exact Dr|]. intros vs s1 A1 D1.
      eapply yields_bind; [apply yields_new_list; exact D1|]. intros v s2 A2 D2.
      apply yields_ret. exists v. auto.
    - intros o s' A (v & -> & D). apply yields_ret. exact D. }
  destruct (store_ok _ (xret it) s x (XR it) (PList prest) O NS Y) as (s' & E & Mv & V); [reflexivity|].
  exists s'. split; [|split; [exact Mv|split; [exact V|exact (chg_den _ _ _ _ _ Mv Di)]]].
  rewrite <- E, bind_assoc. reflexivity.
Qed.

Lemma slice_tail {A} (a : A) l : seq_slice (a :: l) (Some 1) None = Some l.
Proof.
  destruct (seq_slice_window (a :: l) ltac:(discriminate) (Some 1) None) as (r & -> & W).
  f_equal. eapply window_unique; [exact W|]. cbn [from_end].
  pose proof (window_inside (a :: l) 1 (zlen (a :: l)) ltac:(lia) ltac:(lia)) as W2.
  replace (firstn _ _) with l in W2; [exact W2|].
  unfold zlen. cbn [length]. replace (Z.to_nat (Z.of_nat (S (length l)) - 1)) with (length l) by lia.
  change (Z.to_nat 1) with 1%nat. cbn [skipn]. rewrite firstn_all. reflexivity.
Qed.
Lemma slice_front {A} (a : A) l : seq_slice (l ++ [a]) None (Some (-1)) = Some l.
Proof.
  assert (NE : l ++ [a] <> []) by (destruct l; discriminate).
  destruct (seq_slice_window (l ++ [a]) NE None (Some (-1))) as (r & -> & W).
  f_equal. eapply window_unique; [exact W|]. cbn [from_end].
  change (-1 <? 0) with true. cbv iota.
  pose proof (window_inside (l ++ [a]) 0 (-1 + Z.of_nat (length (l ++ [a]))) ltac:(lia)) as W2.
  specialize (W2 ltac:(unfold zlen; lia)).
  replace (firstn _ _) with l in W2; [exact W2|].
  rewrite app_length. cbn [length Z.to_nat skipn].
  replace (Z.to_nat (-1 + Z.of_nat (length l + 1) - 0)) with (length l) by lia.
  rewrite firstn_app, Nat.sub_diag, firstn_all, firstn_O, app_nil_r. reflexivity.
Qed.
Lemma index_head {A} (a : A) l : seq_index (a :: l) 0 = Some a.
Proof. unfold seq_index. rewrite Z.mod_0_l by (unfold zlen; cbn [length]; lia). reflexivity. Qed.
Lemma index_last {A} (a : A) l : seq_index (l ++ [a]) (-1) = Some a.
Proof.
  unfold seq_index. destruct (l ++ [a]) as [|b m] eqn:E; [destruct l; discriminate|].
  rewrite <- E. unfold zlen. rewrite app_length. cbn [length].
  replace (-1 mod Z.of_nat (length l + 1)) with (Z.of_nat (length l)).
  - unfold znth. destruct (Z.ltb_spec (Z.of_nat (length l)) 0); [lia|].
    rewrite Nat2Z.id, nth_error_app2, Nat.sub_diag by lia. reflexivity.
  - apply Z.mod_unique with (q := -1); lia.
Qed.

Lemma remove_general (text : string) w i a b s x p ps rest :
  (exists op, op_by_arity 1 (s_ text) = Some op /\ lambda_vals op = true /\
     forall R y s l s', rval_h y s = Ok (HList l) s' ->
       call_fun R (o_fun op) [AVal y] s = take_end w y (HList l) (IInt i) (ISlice a b) s') ->
  (forall h items, dens h items ps ->
     exists it its, seq_index items i = Some it /\ seq_slice items a b = Some its /\ items <> [] /\
       den h it p /\ dens h its rest) ->
  ordinary s x -> st_scopes s <> [] -> var s x (PList ps) ->
  exists v s', gives s (app text [name x]) v s' /\ den (st_heap s') v p /\
    var s' x (PList rest) /\ changes_only x s s' /\ st_scopes s' <> [].
Proof.
  intros (op & Fo & P & C) Split O NS V.
  destruct (evals_lam1 s op (name x) (XL (LName x [] None)) s (PList ps) P) as (s0 & A0 & K).
  { apply evals_name; auto. }
  { apply (name_readable _ _ _ O V). }
  { reflexivity. }
  pose proof (adv_var _ _ _ _ A0 V) as V0. pose proof (adv_ordinary _ _ _ A0 O) as O0.
  destruct (get_name_ok s0 x _ O0 V0) as (l & s1 & E1 & A1 & D1 & _).
  assert (A : adv s s1) by eauto using adv_trans.
  inversion D1 as [| |l0 items ps0 N Ds| | |]; subst.
  destruct (Split _ _ Ds) as (it & its & Ix & Sl & NE & Di & Dr).
  destruct (take_ok w x s1 i a b it its p ps items rest) with (l := l0)
    as (s2 & E2 & Mv & V2 & D2); try assumption.
  { exact (adv_ordinary _ _ _ A O). }
  { rewrite (adv_scopes _ _ A). exact NS. }
  assert (Mv0 : chg x s s2) by (eapply chg_trans; [apply adv_chg; exact A|exact Mv]).
  exists it, s2. split; [|split; [exact D2|split; [exact V2|split]]].
  - apply gives_evals. exists (XR it), s2. split; [|reflexivity].
    unfold app. cbn [length]. rewrite Fo. apply (K _ _ 0%nat). rewrite (C (run 0) (XL (LName x [] None)) s0 _ s1 E1). exact E2.
  - apply moved_changes. exact Mv0.
  - exact (chg_scopes _ _ _ Mv0 NS).
Qed.

Theorem pop_front s x p ps :
  ordinary s x -> st_scopes s <> [] -> var s x (PList (p :: ps)) ->
  exists v s', gives s (app "PO" [name x]) v s' /\ den (st_heap s') v p /\
    var s' x (PList ps) /\ changes_only x s s' /\ st_scopes s' <> [].
Proof.
  apply (remove_general "PO" "POP" 0 (Some 1) None).
  - eexists. split; [reflexivity|]. split; [reflexivity|]. intros R y s0 l s' E.
    change (POP y s0 = take_end "POP" y (HList l) (IInt 0) (ISlice (Some 1) None) s').
    unfold POP. rewrite (bind_step _ _ _ _ _ E). reflexivity.
  - intros h items D. inversion D as [|it q its qs Di Dr]; subst. exists it, its.
    split; [apply index_head|]. split; [apply slice_tail|]. split; [discriminate|]. auto.
Qed.
Lemma dens_last h vs ps p :
  dens h vs (ps ++ [p]) -> exists vs' v, vs = vs' ++ [v] /\ dens h vs' ps /\ den h v p.
Proof.
  revert vs. induction ps as [|q ps IH]; intros vs D; inversion D as [|v q' vs' qs Dv Dr]; subst.
  - inversion Dr; subst. exists [], v. split; [reflexivity|]. split; [constructor|exact Dv].
  - destruct (IH _ Dr) as (ws & w & -> & Ds & Dw). exists (v :: ws), w.
    split; [reflexivity|]. split; [constructor; assumption|exact Dw].
Qed.
Theorem pop_back s x p ps :
  ordinary s x -> st_scopes s <> [] -> var s x (PList (ps ++ [p])) ->
  exists v s', gives s (app "DQ" [name x]) v s' /\ den (st_heap s') v p /\
    var s' x (PList ps) /\ changes_only x s s' /\ st_scopes s' <> [].
Proof.
  apply (remove_general "DQ" "DEQUEUE" (-1) None (Some (-1))).
  - eexists. split; [reflexivity|]. split; [reflexivity|]. intros R y s0 l s' E.
    change (DEQUEUE y s0 = take_end "DEQUEUE" y (HList l) (IInt (-1)) (ISlice None (Some (-1))) s').
    unfold DEQUEUE. rewrite (bind_step _ _ _ _ _ E). reflexivity.
  - intros h items D. apply dens_last in D. destruct D as (its & it & -> & Dr & Di). exists it, its.
    split; [apply index_last|]. split; [apply slice_front|]. split; [destruct its; discriminate|]. auto.
Qed.

(** ** Sequences of these operations *)

Lemma gives_same s e v s1 w s2 : gives s e v s1 -> gives s e w s2 -> v = w /\ s1 = s2.
Proof. intros A B. destruct (gives_fun _ _ _ _ _ _ A B). auto. Qed.

Theorem push_pop s x e p ps u s1 :
  ordinary s x -> st_scopes s <> [] -> var s x (PList ps) -> means s e p -> is_block p = false ->
  gives s (app "PU" [name x; e]) u s1 ->
  exists v s2, gives s1 (app "PO" [name x]) v s2 /\ den (st_heap s2) v p /\
    var s2 x (PList ps) /\ changes_only x s s2.
Proof.
  intros O NS V Me NB G. destruct (push_front s x e p ps O NS V Me NB) as (u' & s1' & G' & _ & V1 & C1 & N1).
  destruct (gives_same _ _ _ _ _ _ G G') as [<- <-].
  destruct (pop_front s1 x p ps (io_ordinary _ _ _ _ (gives_io _ _ _ _ G) O) N1 V1)
    as (v & s2 & G2 & D2 & V2 & C2 & _).
  exists v, s2. split; [exact G2|]. split; [exact D2|]. split; [exact V2|].
  exact (changes_trans _ _ _ _ C1 C2).
Qed.
Theorem push_pop_back s x e p ps u s1 :
  ordinary s x -> st_scopes s <> [] -> var s x (PList ps) -> means s e p -> is_block p = false ->
  gives s (app "PB" [name x; e]) u s1 ->
  exists v s2, gives s1 (app "DQ" [name x]) v s2 /\ den (st_heap s2) v p /\
    var s2 x (PList ps) /\ changes_only x s s2.
Proof.
  intros O NS V Me NB G. destruct (push_back s x e p ps O NS V Me NB) as (u' & s1' & G' & _ & V1 & C1 & N1).
  destruct (gives_same _ _ _ _ _ _ G G') as [<- <-].
  destruct (pop_back s1 x p ps (io_ordinary _ _ _ _ (gives_io _ _ _ _ G) O) N1 V1)
    as (v & s2 & G2 & D2 & V2 & C2 & _).
  exists v, s2. split; [exact G2|]. split; [exact D2|]. split; [exact V2|].
  exact (changes_trans _ _ _ _ C1 C2).
Qed.

Theorem queue_order x s ins outs s2 q :
  queue_use x "PB" "PO" s ins outs s2 ->
  ordinary s x -> st_scopes s <> [] -> var s x (PList q) ->
  Forall (fun p => is_block p = false) ins ->
  exists rest, var s2 x (PList rest) /\ q ++ ins = outs ++ rest.
Proof.
  intros U. revert q. induction U as [s|s e p w s1 ins outs s2 Me G U IH|s w p s1 l ins outs s2 Vl NE G D U IH];
    intros q O NS V F.
  - exists q. split; [exact V|apply app_nil_r].
  - inversion F as [|? ? NB F']; subst.
    destruct (push_back s x e p q O NS V Me NB) as (u' & s1' & G' & _ & V1 & _ & N1).
    destruct (gives_same _ _ _ _ _ _ G G') as [<- <-].
    destruct (IH (q ++ [p]) (io_ordinary _ _ _ _ (gives_io _ _ _ _ G) O) N1 V1 F') as (rest & Vr & E).
    exists rest. split; [exact Vr|]. rewrite <- E, <- app_assoc. reflexivity.
  - pose proof (var_fun _ _ _ _ Vl V) as El. injection El as ->.
    destruct q as [|p0 q]; [contradiction|].
    destruct (pop_front s x p0 q O NS V) as (v & s1' & G' & D' & V1 & _ & N1).
    destruct (gives_same _ _ _ _ _ _ G G') as [<- <-].
    pose proof (den_fun _ _ _ _ D D') as ->.
    destruct (IH q (io_ordinary _ _ _ _ (gives_io _ _ _ _ G) O) N1 V1 F) as (rest & Vr & E).
    exists rest. split; [exact Vr|]. cbn [List.app]. rewrite E. reflexivity.
Qed.
Theorem queue_order_back x s ins outs s2 q :
  queue_use x "PU" "DQ" s ins outs s2 ->
  ordinary s x -> st_scopes s <> [] -> var s x (PList (rev q)) ->
  Forall (fun p => is_block p = false) ins ->
  exists rest, var s2 x (PList (rev rest)) /\ q ++ ins = outs ++ rest.
Proof.
  intros U. revert q. induction U as [s|s e p w s1 ins outs s2 Me G U IH|s w p s1 l ins outs s2 Vl NE G D U IH];
    intros q O NS V F.
  - exists q. split; [exact V|apply app_nil_r].
  - inversion F as [|? ? NB F']; subst.
    destruct (push_front s x e p (rev q) O NS V Me NB) as (u' & s1' & G' & _ & V1 & _ & N1).
    destruct (gives_same _ _ _ _ _ _ G G') as [<- <-].
    replace (p :: rev q) with (rev (q ++ [p])) in V1 by (rewrite rev_app_distr; reflexivity).
    destruct (IH (q ++ [p]) (io_ordinary _ _ _ _ (gives_io _ _ _ _ G) O) N1 V1 F') as (rest & Vr & E).
    exists rest. split; [exact Vr|]. rewrite <- E, <- app_assoc. reflexivity.
  - pose proof (var_fun _ _ _ _ Vl V) as El. injection El as ->.
    destruct q as [|p0 q]; [contradiction|].
    cbn [rev] in V.
    destruct (pop_back s x p0 (rev q) O NS V) as (v & s1' & G' & D' & V1 & _ & N1).
    destruct (gives_same _ _ _ _ _ _ G G') as [<- <-].
    pose proof (den_fun _ _ _ _ D D') as ->.
    destruct (IH q (io_ordinary _ _ _ _ (gives_io _ _ _ _ G) O) N1 V1 F) as (rest & Vr & E).
    exists rest. split; [exact Vr|]. cbn [List.app]. rewrite E. reflexivity.
Qed.

(** ** Reading a line of input *)

Lemma evals_looked2 s o a b x s1 s2 y s3 s4 r s' n :
  lambda_vals o = true ->
  evals s a x s1 -> look x s1 = Ok false s2 ->
  evals s2 b y s3 -> look y s3 = Ok false s4 ->
  call_fun (run n) (o_fun o) [AVal x; AVal y] s4 = Ok r s' ->
  evals s (TApp o [a; b]) r s'.
Proof.
  intros P [k E] L [k2 E2] L2 C. apply evals_app. exists (max k (max k2 n)).
  rewrite (eval_op_lam _ o _ [x; y] s s4 P).
  - apply (proj2 (catch_ok _ _ _ _)). apply (more_fun n); [lia|exact C].
  - unfold lambda_vals in P. split_flags P. cbn [map mmap].
    assert (Q : prepare (run (max k (max k2 n))) (o_flags o) (ATree a) s = Ok (AVal x, false) s2).
    { eapply prepare_look; try eassumption.
      exact (more_eval k (max k (max k2 n)) _ _ _ ltac:(lia) E ltac:(discriminate)). }
    assert (Q2 : prepare (run (max k (max k2 n))) (o_flags o) (ATree b) s2 = Ok (AVal y, false) s4).
    { eapply prepare_look; try eassumption.
      exact (more_eval k2 (max k (max k2 n)) _ _ _ ltac:(lia) E2 ltac:(discriminate)). }
    rewrite (bind_step _ _ _ _ _ Q). rewrite (bind_step _ _ _ [(AVal y, false)] s4); [reflexivity|].
    rewrite (bind_step _ _ _ _ _ Q2). reflexivity.
Qed.

Definition q_lval (s : state) : lval := LName (s_ "q") [] (Some (length (st_heap s))).
Lemma eval_q s : evals s (name (s_ "q")) (XL (q_lval s)) (grow [OC None] s).
Proof. exists 1%nat. reflexivity. Qed.

Definition line_cells (s : state) (line : str) : heap :=
  [OC (Some (HScal (S (length (st_heap s))))); OS line; OS line].

Lemma nth_grow (h : heap) t k : nth_error (h ++ t) (length h + k) = nth_error t k.
Proof. rewrite nth_error_app2 by lia. f_equal. lia. Qed.
Lemma nth_grow0 (h : heap) t : nth_error (h ++ t) (length h) = nth_error t 0.
Proof. rewrite <- (Nat.add_0_r (length h)) at 1. apply nth_grow. Qed.

Lemma hset_grow (h : heap) c c' t : hset (h ++ c :: t) (length h) c' = h ++ c' :: t.
Proof. induction h as [|x h IH]; [reflexivity|]. cbn. f_equal. exact IH. Qed.

Lemma get_q s line rest :
  st_in s = line :: rest ->
  get_lval (q_lval s) (grow [OC None] s)
  = Ok (HScal (S (S (length (st_heap s))))) (set_in rest (grow (line_cells s line) s)).
Proof.
  intros E. unfold q_lval. cbn [get_lval].
  change (three_letters (s_ "q")) with false. change (special (s_ "q")) with true. cbv iota.
  rewrite (bind_step _ _ _ tt (grow [OC None] s) eq_refl).
  set (s2 := set_in rest (grow [OC (Some (HScal (S (length (st_heap s))))); OS line] s)).
  assert (G : get_special (s_ "q") (Some (length (st_heap s))) (grow [OC None] s)
              = Ok (HScal (S (length (st_heap s)))) s2).
  { unfold get_special. change (str_eqb (s_ "q") (s_ "q")) with true. cbv iota zeta.
    assert (L : load (length (st_heap s)) (grow [OC None] s) = Ok (OC None) (grow [OC None] s)).
    { unfold load. rewrite grow_heap, nth_grow0. reflexivity. }
    rewrite (bind_step _ _ _ _ _ L).
    assert (R : (o <- read_line;; match o with Some line => fresh (PScal line) | None => mret HNil end)
                  (grow [OC None] s)
                = Ok (HScal (S (length (st_heap s)))) (set_in rest (grow [OC None; OS line] s))).
    { rewrite (bind_step _ _ _ (Some line) (set_in rest (grow [OC None] s))).
      - unfold fresh. cbn [alloc_val]. unfold hnew.
        change (st_heap (set_in rest (grow [OC None] s))) with (st_heap s ++ [OC None]).
        rewrite app_length, Nat.add_1_r, <- app_assoc. reflexivity.
      - unfold read_line. change (st_in (grow [OC None] s)) with (st_in s). rewrite E. reflexivity. }
    rewrite (bind_step _ _ _ _ _ R).
    assert (W : store (length (st_heap s)) (OC (Some (HScal (S (length (st_heap s))))))
                  (set_in rest (grow [OC None; OS line] s)) = Ok tt s2).
    { unfold store.
      change (st_heap (set_in rest (grow [OC None; OS line] s)))
        with (st_heap s ++ [OC None; OS line]).
      rewrite nth_grow0. cbn [nth_error]. rewrite hset_grow. reflexivity. }
    rewrite (bind_step _ _ _ _ _ W). reflexivity. }
  rewrite (bind_step _ _ _ (Some (HScal (S (length (st_heap s))))) s2).
  - cbn [follow]. rewrite (bind_step _ _ _ _ _ eq_refl). unfold copy. cbn [copy_val].
    change (st_heap s2) with (st_heap s ++ [OC (Some (HScal (S (length (st_heap s))))); OS line]).
    rewrite <- (Nat.add_1_r (length (st_heap s))), nth_grow. cbn [nth_error].
    unfold hnew. rewrite app_length. cbn [length].
    replace (length (st_heap s) + 2)%nat with (S (S (length (st_heap s)))) by lia.
    rewrite <- app_assoc, Nat.add_1_r. reflexivity.
  - rewrite (bind_step _ _ _ _ _ G). reflexivity.
Qed.

(** Reading the same occurrence again. *)
Lemma get_q_again s line s0 t :
  st_heap s0 = st_heap s ++ line_cells s line ++ t ->
  yields (get_lval (q_lval s)) s0 (fun v s' => den (st_heap s') v (PScal line)).
Proof.
  intros H. unfold q_lval. cbn [get_lval].
  change (three_letters (s_ "q")) with false. change (special (s_ "q")) with true. cbv iota.
  eapply yields_bind with (Q := fun _ s' => s' = s0).
  { apply yields_ret. reflexivity. }
  intros _ s1 _ ->.
  assert (L : nth_error (st_heap s0) (S (length (st_heap s))) = Some (OS line)).
  { rewrite H, <- (Nat.add_1_r (length (st_heap s))), nth_grow. reflexivity. }
  eapply yields_bind with (Q := fun o s' => o = Some (HScal (S (length (st_heap s)))) /\ s' = s0).
  { exists (Some (HScal (S (length (st_heap s))))), s0. split; [|split; [apply adv_refl|auto]].
    unfold get_special. cbv zeta. unfold mbind, load. rewrite H, nth_grow0. reflexivity. }
  intros o s1 _ [-> ->]. cbn [follow].
  eapply yields_bind with (Q := fun o s' => o = Some (HScal (S (length (st_heap s)))) /\ s' = s0).
  { apply yields_ret. auto. }
  intros o s1 _ [-> ->]. apply yields_copy. constructor. exact L.
Qed.

Theorem read_line_ok s line rest :
  st_in s = line :: rest ->
  exists v s', gives s (name (s_ "q")) v s' /\ den (st_heap s') v (PScal line) /\
    only_adds (set_in rest s) s'.
Proof.
  intros E. exists (HScal (S (S (length (st_heap s))))), (set_in rest (grow (line_cells s line) s)).
  split; [|split].
  - apply gives_evals. exists (XL (q_lval s)), (grow [OC None] s). split; [apply eval_q|].
    exact (get_q s line rest E).
  - constructor. change (nth_error (st_heap s ++ line_cells s line) (S (S (length (st_heap s))))
                         = Some (OS line)).
    replace (S (S (length (st_heap s)))) with (length (st_heap s) + 2)%nat by lia.
    rewrite nth_grow. reflexivity.
  - unfold only_adds. cbn. repeat (split; [reflexivity|]). split; [eauto|].
    exists []. rewrite app_nil_r. reflexivity.
Qed.

Theorem read_end_ok s :
  st_in s = [] ->
  exists s', gives s (name (s_ "q")) HNil s' /\ only_adds s s'.
Proof.
  intros E. exists (grow [OC (Some HNil)] s). split.
  - apply gives_evals. exists (XL (q_lval s)), (grow [OC None] s). split; [apply eval_q|].
    unfold rval_h, q_lval. cbn [get_lval].
    change (three_letters (s_ "q")) with false. change (special (s_ "q")) with true. cbv iota.
    rewrite (bind_step _ _ _ tt (grow [OC None] s) eq_refl).
    assert (G : get_special (s_ "q") (Some (length (st_heap s))) (grow [OC None] s)
                = Ok HNil (grow [OC (Some HNil)] s)).
    { unfold get_special. change (str_eqb (s_ "q") (s_ "q")) with true. cbv iota zeta.
      assert (L : load (length (st_heap s)) (grow [OC None] s) = Ok (OC None) (grow [OC None] s)).
      { unfold load. rewrite grow_heap, nth_grow0. reflexivity. }
      rewrite (bind_step _ _ _ _ _ L).
      assert (R : (o <- read_line;; match o with Some line => fresh (PScal line) | None => mret HNil end)
                    (grow [OC None] s) = Ok HNil (grow [OC None] s)).
      { rewrite (bind_step _ _ _ None (grow [OC None] s)); [reflexivity|].
        unfold read_line. change (st_in (grow [OC None] s)) with (st_in s). rewrite E. reflexivity. }
      rewrite (bind_step _ _ _ _ _ R).
      assert (W : store (length (st_heap s)) (OC (Some HNil)) (grow [OC None] s)
                  = Ok tt (grow [OC (Some HNil)] s)).
      { unfold store. change (st_heap (grow [OC None] s)) with (st_heap s ++ [OC None]).
        rewrite nth_grow0. cbn [nth_error]. rewrite hset_grow. reflexivity. }
      rewrite (bind_step _ _ _ _ _ W). reflexivity. }
    rewrite (bind_step _ _ _ (Some HNil) (grow [OC (Some HNil)] s)); [reflexivity|].
    rewrite (bind_step _ _ _ _ _ G). reflexivity.
  - unfold only_adds. cbn. repeat (split; [reflexivity|]). split; [eauto|].
    exists []. rewrite app_nil_r. reflexivity.
Qed.

Lemma push_line (text : string) (back : bool) w s x ps line rest :
  (exists op, op_by_arity 2 (s_ text) = Some op /\ lambda_vals op = true /\
     forall R a b, call_fun R (o_fun op) [AVal a; AVal b] = PUSH_with w back a b) ->
  ordinary s x -> st_scopes s <> [] -> var s x (PList ps) -> st_in s = line :: rest ->
  exists u s', gives s (app text [name x; name (s_ "q")]) u s' /\
    var s' x (PList (if back then ps ++ [PScal line] else PScal line :: ps)) /\
    changes_only x (set_in rest s) s' /\ st_scopes s' <> [].
Proof.
  intros (op & Fo & P & C) O NS V In.
  destruct (look_ok _ _ s (name_readable s x _ O V) eq_refl) as (b & s0 & L0 & A0 & ->).
  assert (In0 : st_in s0 = line :: rest) by (destruct A0 as (t & d & ->); exact In).
  set (s2 := set_in rest (grow (line_cells s0 line) s0)).
  assert (Lq : look (XL (q_lval s0)) (grow [OC None] s0) = Ok false s2).
  { cbn [look]. rewrite (bind_step _ _ _ _ _ (get_q s0 line rest In0)). reflexivity. }
  assert (H2 : st_heap s2 = st_heap s0 ++ line_cells s0 line ++ []) by reflexivity.
  destruct (get_q_again s0 line s2 [] H2) as (v & s3 & Ey & A3 & D).
  assert (Mv3 : moved [x] s s3).
  { eapply moved_trans; [apply adv_moved; exact A0|].
    eapply moved_trans; [|apply adv_moved; exact A3].
    repeat split; auto.
    - exists (line_cells s0 line). reflexivity.
    - intros y o _ B. destruct B as [sc r0 Lc Sc|Lc]; [|exact (binding_global s2 y Lc)].
      eapply binding_local; [exact Lc|]. exact Sc. }
  assert (V3 : var s3 x (PList ps)).
  { destruct V as (o & B & Dv). exists o. split.
    - assert (Mv : moved [] s s3).
      { eapply moved_trans; [apply adv_moved; exact A0|].
        eapply moved_trans; [|apply adv_moved; exact A3].
        repeat split; auto.
        - exists (line_cells s0 line). reflexivity.
        - intros y o' _ B'. destruct B' as [sc r0 Lc Sc|Lc]; [|exact (binding_global s2 y Lc)].
          eapply binding_local; [exact Lc|]. exact Sc. }
      apply Mv; [intros []|exact B].
    - destruct o; [exact (moved_den _ _ _ _ _ Mv3 Dv)|exact Dv]. }
  destruct (push_ok back w s2 x (XL (q_lval s0)) v s3 (PScal line) ps Ey D) as (s4 & E4 & Mv & V4).
  { exact (moved_ordinary _ _ _ _ Mv3 O). }
  { apply Mv3. exact NS. }
  { exact V3. }
  destruct Mv as (Mv & I4 & Ot4).
  assert (Mv0 : moved [x] s s4) by (eapply moved_trans; eassumption).
  assert (Ev : evals s (app text [name x; name (s_ "q")]) (XL (LName x [] None)) s4).
  { unfold app. cbn [length]. rewrite Fo.
    eapply (evals_looked2 s op _ _ _ s s0 _ _ s2 _ s4 0%nat P).
    - apply evals_name; auto.
    - exact L0.
    - apply eval_q.
    - exact Lq.
    - rewrite C. exact E4. }
  destruct (name_result s _ x s4 _ Ev (moved_ordinary _ _ _ _ Mv0 O) V4) as (u & s5 & G & D5 & A5).
  exists u, s5. split; [exact G|]. split; [exact (adv_var _ _ _ _ A5 V4)|].
  split; [|rewrite (adv_scopes _ _ A5); apply Mv0; exact NS].
  apply (adv_changes x _ s4); [|exact A5]. apply moved_changes. split; [|split].
  - destruct Mv0 as (H & T & Ns & B). repeat split; [exact H|exact T|exact Ns|].
    intros y o N Bo. apply B; [exact N|]. destruct Bo as [sc r0 Lc Sc|Lc];
      [eapply binding_local; [exact Lc|exact Sc]|exact (binding_global s y Lc)].
  - rewrite I4. destruct A3 as (t & d & ->). reflexivity.
  - rewrite Ot4. destruct A3 as (t & d & ->). destruct A0 as (t0 & d0 & ->). reflexivity.
Qed.
Theorem push_line_front s x ps line rest :
  ordinary s x -> st_scopes s <> [] -> var s x (PList ps) -> st_in s = line :: rest ->
  exists u s', gives s (app "PU" [name x; name (s_ "q")]) u s' /\
    var s' x (PList (PScal line :: ps)) /\
    changes_only x (set_in rest s) s' /\ st_scopes s' <> [].
Proof.
  apply (push_line "PU" false "PUSH"). eexists. split; [reflexivity|]. split; reflexivity.
Qed.
Theorem push_line_back s x ps line rest :
  ordinary s x -> st_scopes s <> [] -> var s x (PList ps) -> st_in s = line :: rest ->
  exists u s', gives s (app "PB" [name x; name (s_ "q")]) u s' /\
    var s' x (PList (ps ++ [PScal line])) /\
    changes_only x (set_in rest s) s' /\ st_scopes s' <> [].
Proof.
  apply (push_line "PB" true "PUSHBACK"). eexists. split; [reflexivity|]. split; reflexivity.
Qed.
