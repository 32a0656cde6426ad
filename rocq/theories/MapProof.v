(** * Operators that call a function: proofs *)

From Coq Require Import String List NArith ZArith Bool Arith Lia Sorted Permutation.
From Verif Require Import PyStr PyRe PyNum Tokens OpFun OpTable Unparse
                          PTypes Ops OpsSeq Apply Spec StrFacts PFacts SeqProof ItemProof RunOp
                          NumProof
                          Heap Exec SpecHeap HeapProof ExecRel ExecInv EvalProof
                          SpecScan SpecVars VarProof CtlProof PureProof LoopProof SpecMap.
From Verif Require MainProof ReprProof CutProof MutProof.
Import ListNotations.
Local Open Scope string_scope.
Local Open Scope list_scope.
Local Open Scope Z_scope.

(** ** States *)
Lemma adds_refl s : only_adds s s.
Proof. apply adv_only_adds, adv_refl. Qed.
Lemma adds_trans s1 s2 s3 : only_adds s1 s2 -> only_adds s2 s3 -> only_adds s1 s3.
Proof. apply ReprProof.adds_trans. Qed.
Lemma adds_den s s' v p : only_adds s s' -> den (st_heap s) v p -> den (st_heap s') v p.
Proof.
  intros (_ & _ & _ & _ & _ & _ & _ & _ & _ & _ & _ & [t E] & _) D. rewrite E. apply den_app. exact D.
Qed.
Lemma adds_dens s s' v p : only_adds s s' -> dens (st_heap s) v p -> dens (st_heap s') v p.
Proof.
  intros (_ & _ & _ & _ & _ & _ & _ & _ & _ & _ & _ & [t E] & _) D. rewrite E. apply dens_app. exact D.
Qed.
Lemma adds_fmt s s' : only_adds s s' -> st_fmt s' = st_fmt s.
Proof. intros H. apply H. Qed.

(** ** Computations with enough fuel that only add *)
Definition does_add {A} (F : interp -> M A) (s : state) (Q : A -> state -> Prop) : Prop :=
  exists a s', ends F s a s' /\ only_adds s s' /\ Q a s'.

Lemma da_yields {A} (m : M A) s Q : yields m s Q -> does_add (fun _ => m) s Q.
Proof.
  intros (a & s' & E & A1 & H). exists a, s'. split; [apply ends_const; exact E|].
  split; [apply adv_only_adds; exact A1|exact H].
Qed.
Lemma da_ret {A} (a : A) s (Q : A -> state -> Prop) : Q a s -> does_add (fun _ => mret a) s Q.
Proof. intros H. apply da_yields, yields_ret, H. Qed.
Lemma da_bind {A B} (F : interp -> M A) (G : interp -> A -> M B) s Q Q' :
  steady F -> (forall a, steady (fun R => G R a)) ->
  does_add F s Q ->
  (forall a s1, only_adds s s1 -> Q a s1 -> does_add (fun R => G R a) s1 Q') ->
  does_add (fun R => mbind (F R) (G R)) s Q'.
Proof.
  intros SF SG (a & s1 & E & A1 & H) K. destruct (K a s1 A1 H) as (b & s2 & E2 & A2 & H2).
  exists b, s2. split; [|split; [eapply adds_trans; eassumption|exact H2]].
  apply ends_bind; [exact SF|exact SG|]. eauto.
Qed.
Lemma steady_call f l : steady (fun R => i_call R f l).
Proof. intros R R' H. apply (re_call _ _ _ H). Qed.
Lemma steady_op o l : steady (fun R => i_op R o l).
Proof. intros R R' H. apply (re_op _ _ _ H). Qed.
Lemma steady_fun f l : steady (fun R => i_fun R f l).
Proof. intros R R' H. apply (re_fun _ _ _ H). Qed.
Lemma steady_call_fun f l : steady (fun R => call_fun R f l).
Proof. intros R R' H. apply (r_call_fun _ le_fuel_closed _ _ H). Qed.
Lemma steady_map {A B} (F : interp -> A -> M B) l :
  (forall a, steady (fun R => F R a)) -> steady (fun R => mmap (F R) l).
Proof. intros S R R' H. apply (r_mmap _ le_fuel_closed). intros x. exact (S x _ _ H). Qed.

Lemma da_map {A B X} (F : interp -> A -> M B) (Q : state -> B -> X -> Prop) s0 l xs :
  (forall a, steady (fun R => F R a)) ->
  (forall s s' b x, only_adds s s' -> Q s b x -> Q s' b x) ->
  Forall2 (fun a x => forall s, only_adds s0 s -> does_add (fun R => F R a) s (fun b s' => Q s' b x))
          l xs ->
  forall s, only_adds s0 s ->
  does_add (fun R => mmap (F R) l) s (fun bs s' => Forall2 (Q s') bs xs).
Proof.
  intros S Mono H. induction H as [|a x l xs Ha H IH]; intros s A0; cbn [mmap].
  - apply da_ret. constructor.
  - apply (da_bind (fun R => F R a) (fun R y => ys <- mmap (F R) l;; mret (y :: ys)) s
             (fun b s' => Q s' b x)); [apply S| |apply Ha; exact A0|].
    + intros b. apply steady_bind; [apply steady_map, S|intros ?; apply steady_const].
    + intros b s1 A1 Hb.
      apply (da_bind (fun R => mmap (F R) l) (fun R ys => mret (b :: ys)) s1
               (fun bs s' => Forall2 (Q s') bs xs));
        [apply steady_map, S|intros ?; apply steady_const| |].
      * apply IH. eapply adds_trans; eassumption.
      * intros bs s2 A2 Hbs. apply da_ret. constructor; [|exact Hbs]. eapply Mono; eassumption.
Qed.

(** ** Applying an operator that reads its operands *)
Lemma gives_plain text o es s vs s1 u s' :
  op_by_arity (length es) (s_ text) = Some o -> MainProof.plain_rvals o = true ->
  operands s es vs s1 ->
  gives s (app text es) u s' <->
  exists x s2, ends (fun R => call_fun R (o_fun o) (map arg_of vs)) s1 x s2 /\ rval_h x s2 = Ok u s'.
Proof.
  intros F P Os. destruct (operands_fuel _ _ _ _ Os) as [k K].
  assert (E : forall n, (k <= n)%nat ->
     eval_op (run n) o (map ATree es) s = catch_type (call_fun (run n) (o_fun o) (map arg_of vs)) s1).
  { intros n L. unfold MainProof.plain_rvals in P. split_flags P. unfold eval_op.
    repeat match goal with A : o_assign _ = _ |- _ => rewrite A; clear A
                         | A : o_map _ = _ |- _ => rewrite A; clear A
                         | A : o_fold _ = _ |- _ => rewrite A; clear A
                         | A : o_scan _ = _ |- _ => rewrite A; clear A end.
    rewrite (bind_step _ _ _ _ _ (prepare_trees (run n) (o_flags o) es s vs s1 ltac:(assumption) (K n L))).
    match goal with A : f_in_lambda _ = false |- _ => rewrite A end. cbn [andb].
    rewrite map_map. cbn [fst].
    assert (X : existsb snd (map (fun v : hval => (arg_of v, false)) vs) = false).
    { clear. induction vs; auto. }
    rewrite X. rewrite apply_plain by assumption. reflexivity. }
  rewrite gives_evals. unfold app. rewrite F. split.
  - intros (x & s2 & E1 & E2). exists x, s2. split; [|exact E2].
    apply evals_app in E1. destruct E1 as [n E1].
    assert (E3 : eval_op (run (max n k)) o (map ATree es) s = Ok x s2).
    { apply (more_ends (fun R => eval_op R o (map ATree es)) n); [|lia|exact E1].
      intros R R' H. apply (r_eval_op _ le_fuel_closed _ _ H). }
    rewrite E in E3 by lia. exists (max n k). unfold catch_type in E3.
    destruct (call_fun (run (max n k)) (o_fun o) (map arg_of vs) s1) as [y s3|e s3|];
      [exact E3|destruct e as [|e|]; try destruct e; discriminate|discriminate].
  - intros (x & s2 & [n E1] & E2). exists x, s2. split; [|exact E2].
    apply evals_app. exists (max n k). rewrite E by lia. apply catch_ok.
    exact (more_ends _ n (max n k) _ _ _ (steady_call_fun _ _) ltac:(lia) E1).
Qed.

(** ** Calls in sequence *)
Lemma mmap_map {A B C} (f : B -> M C) (g : A -> B) l :
  mmap f (map g l) = mmap (fun x => f (g x)) l.
Proof. induction l as [|x l IH]; [reflexivity|]. cbn [map mmap]. rewrite IH. reflexivity. Qed.

Lemma calls_each_ends f argss : forall s rs s',
  ends (fun R => mmap (i_call R f) argss) s rs s' <-> calls_each f argss s rs s'.
Proof.
  induction argss as [|args argss IH]; intros s rs s'; cbn [mmap].
  - rewrite ends_const. split.
    + intros E. injection E as <- <-. constructor.
    + intros H. inversion H; subst. reflexivity.
  - rewrite (ends_bind (fun R => i_call R f args)
               (fun R v => vs <- mmap (i_call R f) argss;; mret (v :: vs)));
      [|apply steady_call|intros v; apply steady_bind;
         [apply (steady_map (fun R => i_call R f)); intros; apply steady_call
         |intros ?; apply steady_const]].
    assert (Q : forall v s1, ends (fun R => vs <- mmap (i_call R f) argss;; mret (v :: vs)) s1 rs s'
                 <-> exists vs, rs = v :: vs /\ calls_each f argss s1 vs s').
    { intros v s1. rewrite (ends_bind (fun R => mmap (i_call R f) argss) (fun R vs => mret (v :: vs)));
        [|apply (steady_map (fun R => i_call R f)); intros; apply steady_call
         |intros ?; apply steady_const].
      split.
      - intros (vs & s2 & E1 & E2). apply ends_const in E2. injection E2 as <- <-.
        exists vs. split; [reflexivity|]. apply IH. exact E1.
      - intros (vs & -> & E1). exists vs, s'. split; [apply IH; exact E1|].
        apply ends_const. reflexivity. }
    split.
    + intros (v & s1 & E1 & E2). apply Q in E2. destruct E2 as (vs & -> & E2).
      econstructor; [exact E1|exact E2].
    + intros H. inversion H; subst. eexists _, _. split; [eassumption|]. apply Q. eauto.
Qed.

Definition map_core (f : hval) (argss : list (list hval)) (R : interp) : M xval :=
  rs <- mmap (i_call R f) argss;; v <- new_list rs;; xret v.
Lemma steady_calls f argss : steady (fun R => mmap (i_call R f) argss).
Proof. apply (steady_map (fun R => i_call R f)). intros; apply steady_call. Qed.
Lemma steady_core f argss : steady (map_core f argss).
Proof. apply steady_bind; [apply steady_calls|intros ?; apply steady_const]. Qed.

Lemma new_list_iff rs s x s' :
  (v <- new_list rs;; xret v) s = Ok x s' <-> exists u, x = XR u /\ makes_list rs s u s'.
Proof.
  unfold new_list, alloc, mbind, xret, mret, makes_list. split.
  - intros E. injection E as <- <-. eauto.
  - intros (u & -> & -> & ->). reflexivity.
Qed.

Lemma core_ends f argss s x s' :
  ends (map_core f argss) s x s' <->
  exists rs s3 u, x = XR u /\ calls_each f argss s rs s3 /\ makes_list rs s3 u s'.
Proof.
  unfold map_core.
  rewrite (ends_bind (fun R => mmap (i_call R f) argss) (fun R rs => v <- new_list rs;; xret v));
    [|apply steady_calls|intros ?; apply steady_const].
  split.
  - intros (rs & s1 & E1 & E2). apply ends_const, new_list_iff in E2.
    destruct E2 as (u & -> & L). exists rs, s1, u. split; [reflexivity|].
    split; [apply calls_each_ends; exact E1|exact L].
  - intros (rs & s3 & u & -> & E1 & L). exists rs, s3. split; [apply calls_each_ends; exact E1|].
    apply ends_const, new_list_iff. eauto.
Qed.

(** An operator that comes down to such calls. *)
Lemma maps text o es s vs s1 f argss s2 :
  op_by_arity (length es) (s_ text) = Some o -> MainProof.plain_rvals o = true ->
  operands s es vs s1 ->
  (forall R, call_fun R (o_fun o) (map arg_of vs) s1 = map_core f argss R s2) ->
  forall u s', gives s (app text es) u s' <->
    exists rs s3, calls_each f argss s2 rs s3 /\ makes_list rs s3 u s'.
Proof.
  intros F P Os E u s'. rewrite (gives_plain _ _ _ _ _ _ _ _ F P Os).
  assert (Q : forall x s3, ends (fun R => call_fun R (o_fun o) (map arg_of vs)) s1 x s3
              <-> ends (map_core f argss) s2 x s3).
  { intros x s3. unfold ends. split; intros [n H]; exists n; rewrite E in *; exact H. }
  split.
  - intros (x & s3 & E1 & E2). apply Q, core_ends in E1.
    destruct E1 as (rs & s4 & w & -> & C & L). injection E2 as -> ->. eauto.
  - intros (rs & s3 & C & L). exists (XR u), s'. split; [|reflexivity].
    apply Q, core_ends. eauto 6.
Qed.

(** ** The operands *)
Lemma function_block f : is_function f -> h_block f = true /\ h_iterable f = false.
Proof. intros (sts & r & ->). auto. Qed.
Lemma elems_object h v p l : den h v p -> elems p l -> h_iterable v = true /\ h_block v = false.
Proof. intros D E. destruct E; inversion D; auto. Qed.
Lemma swap_fun f it : is_function f -> h_iterable it = true -> h_block it = false ->
  swap_if_block f it = (f, it) /\ swap_if_block it f = (f, it).
Proof.
  intros F I B. destruct (function_block _ F) as [F1 F2]. unfold swap_if_block.
  rewrite I, B, F1. cbn. auto.
Qed.

Lemma iter_visits s1 it p l :
  den (st_heap s1) it p -> elems p l ->
  exists vs s2, h_iter it s1 = Ok vs s2 /\ adv s1 s2 /\ dens (st_heap s2) vs l
                /\ visits s1 it l vs s2.
Proof.
  intros D E. destruct (yields_iter it p l s1 D (elems_p_iter _ _ E)) as (vs & s2 & E2 & A2 & D2).
  exists vs, s2. split; [exact E2|]. split; [exact A2|]. split; [exact D2|].
  split; [apply adv_only_adds; exact A2|]. split; [exact D2|].
  intros loc objs -> N. cbn [h_iter] in E2. unfold load_list, load, mbind in E2.
  rewrite N in E2. injection E2 as <- _. reflexivity.
Qed.

(** ** M *)
Definition one (v : hval) : list hval := [v].
Lemma MAP_core R f it s1 vs s2 :
  is_function f -> h_iterable it = true -> h_block it = false -> h_iter it s1 = Ok vs s2 ->
  MAP R f it s1 = map_core f (map one vs) R s2 /\ MAP R it f s1 = map_core f (map one vs) R s2.
Proof.
  intros F I B E. destruct (swap_fun f it F I B) as [W1 W2].
  unfold MAP. rewrite W1, W2, I. destruct F as (sts & r & ->). unfold map_core.
  rewrite mmap_map.
  assert (Q : (rs <- (items <- h_iter it;; mmap (fun it0 => i_call R (HBlock sts r) [it0]) items);;
       v <- new_list rs;; xret v) s1
     = (rs <- mmap (fun x => i_call R (HBlock sts r) (one x)) vs;; v <- new_list rs;; xret v) s2).
  { unfold mbind at 1. rewrite (bind_step _ _ _ _ _ E). reflexivity. }
  split; exact Q.
Qed.

Theorem map_calls s e1 e2 f it s1 p l :
  applied s e1 e2 f it s1 -> den (st_heap s1) it p -> elems p l ->
  exists vs s2, visits s1 it l vs s2 /\
    forall u s', gives s (app "M" [e1; e2]) u s' <->
      exists rs s3, calls_each f (map (fun v => [v]) vs) s2 rs s3 /\ makes_list rs s3 u s'.
Proof.
  intros [F Os] D E. destruct (elems_object _ _ _ _ D E) as [I B].
  destruct (iter_visits _ _ _ _ D E) as (vs & s2 & E2 & A2 & D2 & V).
  exists vs, s2. split; [exact V|].
  assert (C : forall R, MAP R f it s1 = map_core f (map one vs) R s2 /\
                        MAP R it f s1 = map_core f (map one vs) R s2)
    by (intros R; apply MAP_core; assumption).
  destruct Os as [Os|Os]; (eapply maps; [reflexivity|reflexivity|exact Os|intros R; apply C]).
Qed.

(** ** MZ, ME, MP *)
Lemma yields_size_elems v p l s :
  den (st_heap s) v p -> elems p l -> yields (h_size v) s (fun n _ => n = Some (length l)).
Proof.
  intros D E.
  assert (Q : yields (items <- h_iter v;; mret (Some (length items))) s (fun n _ => n = Some (length l))).
  { eapply yields_bind; [eapply yields_iter; [exact D|apply elems_p_iter; exact E]|].
    intros vs s' _ Dv. apply yields_ret. rewrite (dens_length _ _ _ Dv). reflexivity. }
  destruct E; inversion D; subst; exact Q.
Qed.
Lemma yields_take_elems n v p l s :
  den (st_heap s) v p -> elems p l ->
  yields (h_take n v) s (fun vs s' => dens (st_heap s') vs (firstn n l)).
Proof.
  intros D E.
  assert (Q : yields (items <- h_iter v;; mret (firstn n items)) s
                (fun vs s' => dens (st_heap s') vs (firstn n l))).
  { eapply yields_bind; [eapply yields_iter; [exact D|apply elems_p_iter; exact E]|].
    intros vs s' _ Dv. apply yields_ret. apply dens_firstn. exact Dv. }
  destruct E; inversion D; subst; exact Q.
Qed.
Lemma yields_zip_elems a b p q l m s :
  den (st_heap s) a p -> den (st_heap s) b q -> elems p l -> elems q m ->
  yields (h_zip a b) s (fun ps s' => Forall2 (den2 s') ps (combine l m)).
Proof.
  intros Da Db Ea Eb. unfold h_zip.
  eapply yields_bind; [eapply yields_size_elems; eassumption|]. intros na s1 A1 ->.
  eapply yields_bind; [eapply yields_size_elems; [eapply adv_den; eassumption|eassumption]|].
  intros nb s2 A2 ->.
  assert (Da2 : den (st_heap s2) a p) by eauto using adv_den.
  assert (Db2 : den (st_heap s2) b q) by eauto using adv_den.
  eapply yields_bind; [eapply yields_iter; [exact Da2|apply elems_p_iter; exact Ea]|].
  intros la s3 A3 Dl. eapply yields_bind.
  - eapply (yields_take_elems (length l)); [eapply adv_den; eassumption|exact Eb].
  - intros lb s4 A4 Dr. apply yields_ret.
    rewrite <- (combine_firstn_l l m). apply dens_combine; [eapply adv_dens; eassumption|exact Dr].
Qed.

Definition pair_args (p : hval * hval) : list hval := [fst p; snd p].
Lemma pairs_eq R f pairs :
  mmap (fun '(a, b) => i_call R f [a; b]) pairs = mmap (i_call R f) (map pair_args pairs).
Proof.
  rewrite mmap_map. induction pairs as [|[a b] l IH]; [reflexivity|].
  cbn [mmap]. rewrite IH. reflexivity.
Qed.
Lemma MAPZIP_core R f it1 it2 s1 pairs s2 :
  is_function f -> h_iterable it1 = true -> h_block it1 = false -> h_iterable it2 = true ->
  h_zip it1 it2 s1 = Ok pairs s2 ->
  MAPZIP R f it1 it2 s1 = map_core f (map pair_args pairs) R s2
  /\ MAPZIP R it1 f it2 s1 = map_core f (map pair_args pairs) R s2.
Proof.
  intros F I1 B1 I2 E. destruct (swap_fun f it1 F I1 B1) as [W1 W2].
  unfold MAPZIP. rewrite W1, W2, I1, I2, (proj1 (function_block _ F)). cbn [andb].
  rewrite (bind_step _ _ _ _ _ E). rewrite pairs_eq. split; reflexivity.
Qed.

(** The values of the arguments. *)
Lemma pair_values s pairs l :
  Forall2 (den2 s) pairs l ->
  Forall2 (dens (st_heap s)) (map pair_args pairs) (map couple l).
Proof.
  induction 1 as [|[a b] [p q] pairs l [Da Db] _ IH]; cbn [map]; constructor; [|exact IH].
  unfold pair_args, couple. cbn in *. repeat constructor; assumption.
Qed.

Theorem zip_calls s e1 e2 e3 f it1 it2 s1 p q l m :
  is_function f ->
  operands s [e1; e2; e3] [f; it1; it2] s1 \/ operands s [e1; e2; e3] [it1; f; it2] s1 ->
  den (st_heap s1) it1 p -> den (st_heap s1) it2 q -> elems p l -> elems q m ->
  exists argss s2, only_adds s1 s2
    /\ Forall2 (dens (st_heap s2)) argss (map couple (combine l m))
    /\ forall u s', gives s (app "MZ" [e1; e2; e3]) u s' <->
         exists rs s3, calls_each f argss s2 rs s3 /\ makes_list rs s3 u s'.
Proof.
  intros F Os D1 D2 E1 E2. destruct (elems_object _ _ _ _ D1 E1) as [I1 B1].
  destruct (elems_object _ _ _ _ D2 E2) as [I2 B2].
  destruct (yields_zip_elems _ _ _ _ _ _ _ D1 D2 E1 E2) as (pairs & s2 & E & A & V).
  exists (map pair_args pairs), s2. split; [apply adv_only_adds; exact A|].
  split; [apply pair_values; exact V|].
  assert (C : forall R, MAPZIP R f it1 it2 s1 = map_core f (map pair_args pairs) R s2
                     /\ MAPZIP R it1 f it2 s1 = map_core f (map pair_args pairs) R s2)
    by (intros R; apply MAPZIP_core; assumption).
  destruct Os as [Os|Os]; (eapply maps; [reflexivity|reflexivity|exact Os|intros R; apply C]).
Qed.

Lemma len_elems v p l s :
  den (st_heap s) v p -> elems p l -> h_len v s = Ok (Some (zlen l)) s.
Proof.
  intros D E. destruct (is_list_or_range p) eqn:L; [eapply len_ok; eassumption|].
  destruct E; try discriminate. inversion D as [? ? Nt| | | | |]; subst. cbn [h_len].
  unfold load_str, load, mbind. rewrite Nt. unfold mret, zlen. rewrite map_length. reflexivity.
Qed.

Lemma numbered_eq l : forall i,
  numbered i l = combine (seq i (length l)) l.
Proof. induction l as [|x l IH]; intros i; [reflexivity|]. cbn. rewrite IH. reflexivity. Qed.
Lemma numbers_of l : elems (PRange None (Some (zlen l)))
  (map (fun i => whole (Z.of_nat i)) (seq 0 (@length pval l))).
Proof.
  assert (E : map (fun i => whole (Z.of_nat i)) (seq 0 (length l))
              = map (fun i => PScal (str_of_Z i)) (ints_from 0 (Z.to_nat (zlen l - 0)))).
  { unfold zlen. rewrite Z.sub_0_r, Nat2Z.id. unfold whole.
    generalize (length l) as n. intros n. 
    assert (G : forall k, map (fun i => PScal (str_of_Z (Z.of_nat i))) (seq k n)
             = map (fun i => PScal (str_of_Z i)) (ints_from (Z.of_nat k) n)).
    { induction n as [|n IH]; intros k; [reflexivity|]. cbn. rewrite IH.
      do 4 f_equal. lia. }
    apply (G O). }
  rewrite E. apply (elems_range None (zlen l)).
Qed.

Definition number_pair (p : nat * pval) : list pval := [whole (Z.of_nat (fst p)); snd p].

Theorem enumerate_calls s e1 e2 f it s1 p l :
  applied s e1 e2 f it s1 -> den (st_heap s1) it p -> elems p l ->
  exists argss s2, only_adds s1 s2
    /\ Forall2 (dens (st_heap s2)) argss (map number_pair (numbered 0 l))
    /\ forall u s', gives s (app "ME" [e1; e2]) u s' <->
         exists rs s3, calls_each f argss s2 rs s3 /\ makes_list rs s3 u s'.
Proof.
  intros [F Os] D E. destruct (elems_object _ _ _ _ D E) as [I B].
  pose proof (numbers_of l) as En.
  destruct (yields_zip_elems (HRange None (Some (zlen l))) it _ _ _ _ s1 (den_range _ _ _) D En E)
    as (pairs & s2 & Ez & A & V).
  exists (map pair_args pairs), s2. split; [apply adv_only_adds; exact A|]. split.
  { pose proof (pair_values _ _ _ V) as W.
    replace (map number_pair (numbered 0 l)) with
      (map couple (combine (map (fun i => whole (Z.of_nat i)) (seq 0 (length l))) l)); [exact W|].
    rewrite numbered_eq. generalize (seq 0 (length l)) as ns. clear. intros ns. revert l.
    induction ns as [|n ns IH]; intros [|x l]; try reflexivity.
    cbn [map combine]. rewrite IH. reflexivity. }
  destruct (swap_fun f it F I B) as [W1 W2].
  assert (C : forall R, MAPENUMERATE R f it s1 = map_core f (map pair_args pairs) R s2
                     /\ MAPENUMERATE R it f s1 = map_core f (map pair_args pairs) R s2).
  { intros R. unfold MAPENUMERATE. rewrite W1, W2, I, (proj1 (function_block _ F)). cbn [andb].
    rewrite (bind_step _ _ _ _ _ (len_elems _ _ _ _ D E)).
    split; apply MAPZIP_core; auto. }
  destruct Os as [Os|Os]; (eapply maps; [reflexivity|reflexivity|exact Os|intros R; apply C]).
Qed.

Lemma adjacent_eq {A} (l : list A) : adjacent l = combine l (tl l).
Proof.
  induction l as [|x [|y l] IH]; try reflexivity. cbn [adjacent tl combine] in *. rewrite IH. reflexivity.
Qed.

Lemma slice_rest p l : elems p l ->
  exists w, p_getitem p (ISlice (Some 1) None) = Val w /\ elems w (tl l).
Proof.
  intros E. destruct l as [|x l].
  - exists p. split; [|exact E]. pose proof (elems_len _ _ E) as PL.
    destruct p as [s|r g|l'|lo [u|]|st r|]; try solve [inversion E]; cbn [p_getitem].
    + destruct s; [|inversion E]. rewrite seq_slice_nil. reflexivity.
    + inversion E; subst. rewrite seq_slice_nil. reflexivity.
    + cbn [p_len range_len] in PL. injection PL as PL. unfold range_is_empty.
      replace (u <=? lower0 lo) with true by (change (zlen (@nil pval)) with 0 in PL; lia). reflexivity.
  - destruct (CutProof.slice_tail p (x :: l) 1 E) as (w & G & Ew); [lia|unfold zlen; cbn; lia|].
    exists w. split; [exact G|]. unfold CutProof.between in Ew.
    replace (Z.to_nat (zlen (x :: l) - 1)) with (length l) in Ew by (unfold zlen; cbn [length]; lia).
    change (Z.to_nat 1) with 1%nat in Ew. cbn [skipn tl] in *. rewrite firstn_all in Ew. exact Ew.
Qed.

Lemma yields_rest v p l s :
  den (st_heap s) v p -> elems p l ->
  yields (h_index v (ISlice (Some 1) None)) s
    (fun o s' => exists r q, o = Some r /\ den (st_heap s') r q /\ elems q (tl l)).
Proof.
  intros D E. destruct (slice_rest _ _ E) as (w & G & Ew).
  assert (Q : forall s0, yields (index_new p (ISlice (Some 1) None)) s0
    (fun o s' => exists r q, o = Some r /\ den (st_heap s') r q /\ elems q (tl l))).
  { intros s0. unfold index_new. rewrite G. eapply yields_bind; [apply yields_fresh|].
    intros r s' _ Dr. apply yields_ret. exists r, w. auto. }
  destruct E as [t|l|lo u];
    inversion D as [? ? Nt| |? objs ? Nl Ds| | |]; subst; cbn [h_index].
  - eapply yields_bind; [apply yields_load_str; eassumption|]. intros x s' A [-> ->]. apply Q.
  - eapply yields_bind; [apply yields_load_list; eassumption|]. intros x s' A [-> ->].
    destruct Ds as [|v0 p0 vs0 ps0 D0 Ds].
    + apply yields_ret. eexists _, (PList []). split; [reflexivity|]. split; [exact D|constructor].
    + rewrite MutProof.slice_tail. eapply yields_bind; [apply yields_copies; eassumption|].
      intros y s2 A2 Dy. eapply yields_bind; [apply yields_new_list; exact Dy|].
      intros r s3 A3 Dr. apply yields_ret. eexists _, _. split; [reflexivity|].
      split; [exact Dr|constructor].
  - apply Q.
Qed.

Theorem pairs_calls s e1 e2 f it s1 p l :
  applied s e1 e2 f it s1 -> den (st_heap s1) it p -> elems p l ->
  exists argss s2, only_adds s1 s2
    /\ Forall2 (dens (st_heap s2)) argss (map couple (adjacent l))
    /\ forall u s', gives s (app "MP" [e1; e2]) u s' <->
         exists rs s3, calls_each f argss s2 rs s3 /\ makes_list rs s3 u s'.
Proof.
  intros [F Os] D E. destruct (elems_object _ _ _ _ D E) as [I B].
  destruct (yields_rest _ _ _ _ D E) as (o & s0 & Ei & A0 & r & q & -> & Dr & Er).
  destruct (elems_object _ _ _ _ Dr Er) as [Ir Br].
  destruct (yields_zip_elems it r _ _ _ _ s0 (adv_den _ _ _ _ A0 D) Dr E Er)
    as (pairs & s2 & Ez & A & V).
  exists (map pair_args pairs), s2. split; [apply adv_only_adds; eapply adv_trans; eassumption|].
  split; [rewrite adjacent_eq; apply pair_values; exact V|].
  destruct (swap_fun f it F I B) as [W1 W2].
  assert (C : forall R, MAPPAIRS R f it s1 = map_core f (map pair_args pairs) R s2
                     /\ MAPPAIRS R it f s1 = map_core f (map pair_args pairs) R s2).
  { intros R. unfold MAPPAIRS. rewrite W1, W2, I, (proj1 (function_block _ F)). cbn [andb].
    rewrite (bind_step _ _ _ _ _ Ei). split; apply MAPZIP_core; auto. }
  destruct Os as [Os|Os]; (eapply maps; [reflexivity|reflexivity|exact Os|intros R; apply C]).
Qed.

(** ** Functions without effects *)
Lemma Forall2_imp {A B} (P Q : A -> B -> Prop) l r :
  (forall a b, P a b -> Q a b) -> Forall2 P l r -> Forall2 Q l r.
Proof. intros H. induction 1; constructor; auto. Qed.
Lemma computes_each s0 f F : computes s0 f F -> forall argss pss rs,
  Forall2 F pss rs -> forall s, only_adds s0 s -> Forall2 (dens (st_heap s)) argss pss ->
  exists vs s', calls_each f argss s vs s' /\ only_adds s s' /\ dens (st_heap s') vs rs.
Proof.
  intros C argss pss rs H. revert argss.
  induction H as [|ps p pss rs Hp H IH]; intros argss s A D; inversion D as [|args ps' argss' pss' D1 D2]; subst.
  - exists [], s. split; [constructor|]. split; [apply adds_refl|constructor].
  - destruct (C s args ps p A D1 Hp) as (v & s1 & Cv & A1 & Dv).
    destruct (IH argss' s1 (adds_trans _ _ _ A A1)) as (vs & s2 & Cs & A2 & Ds).
    { eapply Forall2_imp; [|exact D2]. intros a b. apply adds_dens. exact A1. }
    exists (v :: vs), s2. split; [econstructor; eassumption|].
    split; [eapply adds_trans; eassumption|]. constructor; [eapply adds_den; eassumption|exact Ds].
Qed.

Lemma listed_den rs qs s u s' :
  dens (st_heap s) rs qs -> makes_list rs s u s' -> den (st_heap s') u (PList qs) /\ adv s s'.
Proof.
  intros D [-> ->]. split.
  - cbn. econstructor; [rewrite nth_error_app2, Nat.sub_diag by lia; reflexivity|].
    apply dens_app. exact D.
  - apply (adv_grow [OL rs] s).
Qed.

(** The value of an operator that comes down to calls of such a function. *)
Lemma maps_value s s1 s2 e f argss pss qs F :
  computes s1 f F -> only_adds s1 s2 -> Forall2 (dens (st_heap s2)) argss pss -> Forall2 F pss qs ->
  (forall u s', gives s e u s' <->
     exists rs s3, calls_each f argss s2 rs s3 /\ makes_list rs s3 u s') ->
  results s s1 e (PList qs).
Proof.
  intros C A D H G. destruct (computes_each _ _ _ C _ _ _ H _ A D) as (rs & s3 & Cs & A3 & Ds).
  set (u := HList (length (st_heap s3))). set (s' := set_heap (st_heap s3 ++ [OL rs]) s3).
  assert (L : makes_list rs s3 u s') by (split; reflexivity).
  destruct (listed_den _ _ _ _ _ Ds L) as [Du A4]. exists u, s'.
  split; [apply G; eauto|]. split; [|exact Du].
  eapply adds_trans; [exact A|]. eapply adds_trans; [exact A3|]. apply adv_only_adds. exact A4.
Qed.

Lemma ones_values h vs l :
  dens h vs l -> Forall2 (dens h) (map one vs) (map (fun x => [x]) l).
Proof. induction 1; cbn [map]; constructor; auto. repeat constructor. assumption. Qed.
Lemma Forall2_map_l {A B C} (P : B -> C -> Prop) (g : A -> B) l r :
  Forall2 (fun x y => P (g x) y) l r -> Forall2 P (map g l) r.
Proof. induction 1; cbn [map]; constructor; auto. Qed.

Theorem map_value s e1 e2 f it s1 p l F r :
  applied s e1 e2 f it s1 -> den (st_heap s1) it p -> elems p l ->
  computes s1 f F -> Forall2 (fun x y => F [x] y) l r ->
  results s s1 (app "M" [e1; e2]) (PList r).
Proof.
  intros Ap D E C H. destruct (map_calls _ _ _ _ _ _ _ _ Ap D E) as (vs & s2 & (A & Dv & _) & G).
  eapply maps_value; [exact C|exact A|apply ones_values; exact Dv| |exact G].
  apply Forall2_map_l. exact H.
Qed.
Theorem zip_value s e1 e2 e3 f it1 it2 s1 p q l m F r :
  is_function f ->
  operands s [e1; e2; e3] [f; it1; it2] s1 \/ operands s [e1; e2; e3] [it1; f; it2] s1 ->
  den (st_heap s1) it1 p -> den (st_heap s1) it2 q -> elems p l -> elems q m ->
  computes s1 f F -> Forall2 (fun x y => F [fst x; snd x] y) (combine l m) r ->
  results s s1 (app "MZ" [e1; e2; e3]) (PList r).
Proof.
  intros Fn Os D1 D2 E1 E2 C H.
  destruct (zip_calls _ _ _ _ _ _ _ _ _ _ _ _ Fn Os D1 D2 E1 E2) as (argss & s2 & A & Dv & G).
  eapply maps_value; [exact C|exact A|exact Dv| |exact G]. apply Forall2_map_l. exact H.
Qed.
Theorem enumerate_value s e1 e2 f it s1 p l F r :
  applied s e1 e2 f it s1 -> den (st_heap s1) it p -> elems p l ->
  computes s1 f F -> Forall2 (fun x y => F [whole (Z.of_nat (fst x)); snd x] y) (numbered 0 l) r ->
  results s s1 (app "ME" [e1; e2]) (PList r).
Proof.
  intros Ap D E C H. destruct (enumerate_calls _ _ _ _ _ _ _ _ Ap D E) as (argss & s2 & A & Dv & G).
  eapply maps_value; [exact C|exact A|exact Dv| |exact G]. apply Forall2_map_l. exact H.
Qed.
Theorem pairs_value s e1 e2 f it s1 p l F r :
  applied s e1 e2 f it s1 -> den (st_heap s1) it p -> elems p l ->
  computes s1 f F -> Forall2 (fun x y => F [fst x; snd x] y) (adjacent l) r ->
  results s s1 (app "MP" [e1; e2]) (PList r).
Proof.
  intros Ap D E C H. destruct (pairs_calls _ _ _ _ _ _ _ _ Ap D E) as (argss & s2 & A & Dv & G).
  eapply maps_value; [exact C|exact A|exact Dv| |exact G]. apply Forall2_map_l. exact H.
Qed.

(** ** MJ, MF, MS *)
Lemma fun_ends f l s x s' :
  ends (fun R => i_fun R f l) s x s' <-> ends (fun R => call_fun R f l) s x s'.
Proof.
  split; intros [n E].
  - destruct n as [|n]; [discriminate|]. exists n. exact E.
  - exists (S n). exact E.
Qed.
Lemma op_ends o l s x s' :
  ends (fun R => i_op R o l) s x s' <-> ends (fun R => eval_op R o l) s x s'.
Proof.
  split; intros [n E].
  - destruct n as [|n]; [discriminate|]. exists n. exact E.
  - exists (S n). exact E.
Qed.

(** Passing on a list to another operator. *)
Lemma then_fun (K : interp -> M xval) g s2 u s3 q m p :
  steady K -> ends K s2 (XR u) s3 -> den (st_heap s3) u q -> value_fun g 1 = true ->
  pure_fun (st_fmt s3) g [q] = Some m -> snd m = Val p ->
  exists w s', ends (fun R => x <- K R;; i_fun R g [AVal x]) s2 (XR w) s'
    /\ only_adds s3 s' /\ den (st_heap s') w p.
Proof.
  intros SK E D V Pm Vp.
  pose proof (follows_pure g [u] [q] s3 V (dens_cons _ _ _ _ _ D (dens_nil _))) as Fo.
  unfold follows in Fo. rewrite Pm, Vp in Fo. destruct Fo as (x & s' & E2 & A & w & -> & Dw).
  exists w, s'. split; [|split; [apply adv_only_adds; exact A|exact Dw]].
  rewrite (ends_bind K (fun R x => i_fun R g [AVal x]) _ _ _ SK (fun x => steady_fun g [AVal x])).
  exists (XR u), s3. split; [exact E|]. apply fun_ends. exists O.
  change (call_fun (run 0) g (map arg_of [u]) s3 = Ok (XR w) s').
  rewrite call_fun_value by exact V. exact E2.
Qed.

Lemma gives_ends text o es s vs s1 w s' :
  op_by_arity (length es) (s_ text) = Some o -> MainProof.plain_rvals o = true ->
  operands s es vs s1 ->
  ends (fun R => call_fun R (o_fun o) (map arg_of vs)) s1 (XR w) s' -> gives s (app text es) w s'.
Proof.
  intros F P Os E. apply (gives_plain _ _ _ _ _ _ _ _ F P Os). exists (XR w), s'.
  split; [exact E|reflexivity].
Qed.
Lemma ends_eq {A} (F G : interp -> M A) s s2 a s' :
  (forall R, F R s = G R s2) -> ends F s a s' <-> ends G s2 a s'.
Proof. intros E. split; intros [n H]; exists n; rewrite E in *; exact H. Qed.

Lemma map_then text o g s e1 e2 f it s1 p l :
  op_by_arity 2 (s_ text) = Some o -> MainProof.plain_rvals o = true ->
  (forall R a b, call_fun R (o_fun o) [arg_of a; arg_of b] = (x <- MAP R a b;; i_fun R g [AVal x])) ->
  value_fun g 1 = true ->
  applied s e1 e2 f it s1 -> den (st_heap s1) it p -> elems p l ->
  exists vs s2, visits s1 it l vs s2 /\
    forall rs s3 qs m r, calls_each f (map (fun v => [v]) vs) s2 rs s3 -> dens (st_heap s3) rs qs ->
      pure_fun (st_fmt s3) g [PList qs] = Some m -> snd m = Val r ->
      exists w s', gives s (app text [e1; e2]) w s' /\ only_adds s3 s' /\ den (st_heap s') w r.
Proof.
  intros Op Pl Cf V [F Os] D E. destruct (elems_object _ _ _ _ D E) as [I B].
  destruct (iter_visits _ _ _ _ D E) as (vs & s2 & E2 & A2 & D2 & Vi).
  exists vs, s2. split; [exact Vi|]. intros rs s3 qs m r C Dr Pm Vr.
  set (u := HList (length (st_heap s3))). set (s4 := set_heap (st_heap s3 ++ [OL rs]) s3).
  assert (L : makes_list rs s3 u s4) by (split; reflexivity).
  destruct (listed_den _ _ _ _ _ Dr L) as [Du A4].
  assert (Ek : ends (map_core f (map one vs)) s2 (XR u) s4) by (apply core_ends; eauto 6).
  destruct (then_fun (map_core f (map one vs)) g s2 u s4 (PList qs) m r (steady_core _ _) Ek Du V Pm Vr)
    as (w & s' & Ew & A & Dw).
  exists w, s'. split; [|split; [eapply adds_trans; [apply adv_only_adds; exact A4|exact A]|exact Dw]].
  assert (C2 : forall R, MAP R f it s1 = map_core f (map one vs) R s2 /\
                        MAP R it f s1 = map_core f (map one vs) R s2)
    by (intros R; apply MAP_core; assumption).
  destruct Os as [Os|Os]; (eapply gives_ends; [exact Op|exact Pl|exact Os|]);
    (apply (ends_eq _ (fun R => x <- map_core f (map one vs) R;; i_fun R g [AVal x]) _ s2); [|exact Ew]);
    intros R; cbn [map]; rewrite Cf; unfold mbind; [rewrite (proj1 (C2 R))|rewrite (proj2 (C2 R))];
    reflexivity.
Qed.

Lemma join_pure fmt qs r :
  snd (run_op fmt "J" [PList qs]) = Val r ->
  exists m, pure_fun fmt F_JOIN [PList qs] = Some m /\ snd m = Val r.
Proof.
  intros H. exists (run_op fmt "J" [PList qs]). split; [|exact H]. symmetry.
  assert (E : exists m, pure_fun fmt F_JOIN [PList qs] = Some m /\ run_op fmt "J" [PList qs] = m).
  { eexists. split; [reflexivity|]. run_plain; reflexivity. }
  destruct E as (m & -> & ->). reflexivity.
Qed.
Lemma flatten_pure fmt qs r :
  snd (run_op fmt "FL" [PList qs]) = Val r ->
  exists m, pure_fun fmt F_FLATTEN [PList qs] = Some m /\ snd m = Val r.
Proof.
  intros H. exists (run_op fmt "FL" [PList qs]). split; [|exact H]. symmetry.
  assert (E : exists m, pure_fun fmt F_FLATTEN [PList qs] = Some m /\ run_op fmt "FL" [PList qs] = m).
  { eexists. split; [reflexivity|]. run_plain; reflexivity. }
  destruct E as (m & -> & ->). reflexivity.
Qed.

Theorem mapjoin_does s e1 e2 f it s1 p l :
  applied s e1 e2 f it s1 -> den (st_heap s1) it p -> elems p l ->
  exists vs s2, visits s1 it l vs s2 /\
    forall rs s3 qs r, calls_each f (map (fun v => [v]) vs) s2 rs s3 -> dens (st_heap s3) rs qs ->
      snd (run_op (st_fmt s3) "J" [PList qs]) = Val r ->
      results s s3 (app "MJ" [e1; e2]) r.
Proof.
  intros Ap D E.
  destruct (map_then "MJ" _ F_JOIN s e1 e2 f it s1 p l eq_refl eq_refl (fun _ _ _ => eq_refl) eq_refl Ap D E)
    as (vs & s2 & Vi & G).
  exists vs, s2. split; [exact Vi|]. intros rs s3 qs r C Dr J.
  destruct (join_pure _ _ _ J) as (m & Pm & Vm). exact (G rs s3 qs m r C Dr Pm Vm).
Qed.
Theorem mapflatten_does s e1 e2 f it s1 p l :
  applied s e1 e2 f it s1 -> den (st_heap s1) it p -> elems p l ->
  exists vs s2, visits s1 it l vs s2 /\
    forall rs s3 qs r, calls_each f (map (fun v => [v]) vs) s2 rs s3 -> dens (st_heap s3) rs qs ->
      snd (run_op (st_fmt s3) "FL" [PList qs]) = Val r ->
      results s s3 (app "MF" [e1; e2]) r.
Proof.
  intros Ap D E.
  destruct (map_then "MF" _ F_FLATTEN s e1 e2 f it s1 p l eq_refl eq_refl (fun _ _ _ => eq_refl) eq_refl Ap D E)
    as (vs & s2 & Vi & G).
  exists vs, s2. split; [exact Vi|]. intros rs s3 qs r C Dr J.
  destruct (flatten_pure _ _ _ J) as (m & Pm & Vm). exact (G rs s3 qs m r C Dr Pm Vm).
Qed.

Lemma visits_later s1 s1' it l vs s2 :
  adv s1 s1' -> visits s1' it l vs s2 -> visits s1 it l vs s2.
Proof.
  intros A (A2 & D & H). split; [eapply adds_trans; [apply adv_only_adds; exact A|exact A2]|].
  split; [exact D|]. intros loc objs E Nn. apply (H loc objs E). eapply adv_nth; eassumption.
Qed.

Lemma plus_value : value_op op_plus 2.
Proof. constructor; reflexivity. Qed.
Lemma plus_run fmt p x : run_op fmt "+" [p; x] = apply_op fmt op_plus [p; x].
Proof. reflexivity. Qed.

Lemma sum_ends vs : forall s acc p qs r,
  den (st_heap s) acc p -> dens (st_heap s) vs qs -> adds_up (st_fmt s) p qs r ->
  exists w s', ends (fun R => mfold (fun acc x => i_op R op_plus [AVal acc; AVal (XR x)]) (XR acc) vs) s
                    (XR w) s' /\ only_adds s s' /\ den (st_heap s') w r.
Proof.
  induction vs as [|v vs IH]; intros s acc p qs r Da Dv Ad;
    inversion Dv as [|? q ? qs' D1 D2]; subst; inversion Ad as [|? ? p' ? ? E Ad']; subst.
  - exists acc, s. split; [apply ends_const; reflexivity|]. split; [apply adds_refl|exact Da].
  - rewrite plus_run in E.
    destruct (MutProof.op_values op_plus [acc; v] [p; q] s p' plus_value
                ltac:(repeat constructor; assumption) E) as (n & u & s1 & E1 & A1 & Du).
    destruct (IH s1 u p' qs' r Du (adv_dens _ _ _ _ A1 D2)) as (w & s' & Ew & A & Dw).
    { rewrite (adv_fmt _ _ A1). exact Ad'. }
    exists w, s'. split; [|split; [eapply adds_trans; [apply adv_only_adds; exact A1|exact A]|exact Dw]].
    cbn [mfold].
    assert (SF : forall y l, steady (fun R =>
        mfold (fun acc x => i_op R op_plus [AVal acc; AVal (XR x)]) y l)).
    { intros y l R R' H. apply (r_mfold _ le_fuel_closed). intros; apply (re_op _ _ _ H). }
    rewrite (ends_bind (fun R => i_op R op_plus [AVal (XR acc); AVal (XR v)])
              (fun R y => mfold (fun acc x => i_op R op_plus [AVal acc; AVal (XR x)]) y vs));
      [|apply steady_op|intros y; apply SF].
    exists (XR u), s1. split; [exists n; exact E1|exact Ew].
Qed.

Theorem mapsum_does s e1 e2 f it s1 p l :
  applied s e1 e2 f it s1 -> den (st_heap s1) it p -> elems p l ->
  exists vs s2, visits s1 it l vs s2 /\
    forall rs s3 qs r, calls_each f (map (fun v => [v]) vs) s2 rs s3 -> dens (st_heap s3) rs qs ->
      (exists t, st_heap s3 = st_heap s2 ++ t) -> adds_up (st_fmt s3) (whole 0) qs r ->
      results s s3 (app "MS" [e1; e2]) r.
Proof.
  intros [F Os] D E. destruct (elems_object _ _ _ _ D E) as [I B].
  destruct (yields_fresh (scal_Z 0) s1) as (z & s0 & Ez & A0 & Dz).
  destruct (iter_visits _ _ _ _ (adv_den _ _ _ _ A0 D) E) as (vs & s2 & E2 & A2 & D2 & Vi).
  exists vs, s2. split; [eapply visits_later; eassumption|]. intros rs s3 qs r C Dr A3 Ad.
  set (u := HList (length (st_heap s3))). set (s4 := set_heap (st_heap s3 ++ [OL rs]) s3).
  assert (L : makes_list rs s3 u s4) by (split; reflexivity).
  destruct (listed_den _ _ _ _ _ Dr L) as [Du A4].
  assert (Ek : ends (map_core f (map one vs)) s2 (XR u) s4) by (apply core_ends; eauto 6).
  assert (Dz4 : den (st_heap s4) z (whole 0)).
  { apply (adv_den _ _ _ _ A4). destruct A3 as [t ->]. apply den_app. apply (adv_den _ _ _ _ A2). exact Dz. }
  destruct (sum_ends rs s4 z (whole 0) qs r Dz4 (adv_dens _ _ _ _ A4 Dr)) as (w & s' & Ew & A & Dw).
  { rewrite (adv_fmt _ _ A4). exact Ad. }
  exists w, s'. split; [|split; [eapply adds_trans; [apply adv_only_adds; exact A4|exact A]|exact Dw]].
  assert (C2 : forall R, MAP R f it s0 = map_core f (map one vs) R s2 /\
                        MAP R it f s0 = map_core f (map one vs) R s2)
    by (intros R; apply MAP_core; assumption).
  set (H := fun (R : interp) (x : xval) => l <- to_r x;; items <- h_iter l;;
     mfold (fun acc x => i_op R op_plus [AVal acc; AVal (XR x)]) (XR z) items).
  assert (SH : forall x, steady (fun R => H R x)).
  { intros x. apply steady_bind; [apply steady_const|]. intros l0.
    apply steady_bind; [apply steady_const|]. intros items R R' Rl.
    apply (r_mfold _ le_fuel_closed). intros; apply (re_op _ _ _ Rl). }
  assert (Et : ends (fun R => x <- map_core f (map one vs) R;; H R x) s2 (XR w) s').
  { rewrite (ends_bind (map_core f (map one vs)) H _ _ _ (steady_core _ _) SH).
    exists (XR u), s4. split; [exact Ek|].
    assert (Eq : forall R, H R (XR u) s4
      = mfold (fun acc x => i_op R op_plus [AVal acc; AVal (XR x)]) (XR z) rs s4).
    { intros R. unfold H. rewrite (bind_step (to_r (XR u)) _ s4 u s4 eq_refl).
      apply bind_step. unfold u. cbn [h_iter]. unfold load_list, load, mbind, s4, set_heap. cbn [st_heap].
      rewrite nth_error_app2, Nat.sub_diag by lia. reflexivity. }
    apply (ends_eq (fun R => H R (XR u)) (fun R => mfold (fun acc x => i_op R op_plus [AVal acc; AVal (XR x)])
             (XR z) rs) s4 s4 (XR w) s' Eq). exact Ew. }
  destruct Os as [Os|Os]; (eapply gives_ends; [reflexivity|reflexivity|exact Os|]);
    (apply (ends_eq _ (fun R => x <- map_core f (map one vs) R;; H R x) _ s2); [|exact Et]);
    intros R; cbn [map];
    [change (MAPSUM R f it s1 = (x <- map_core f (map one vs) R;; H R x) s2)
    |change (MAPSUM R it f s1 = (x <- map_core f (map one vs) R;; H R x) s2)];
    unfold MAPSUM; rewrite (bind_step _ _ _ _ _ Ez); unfold mbind at 1;
    [rewrite (proj1 (C2 R))|rewrite (proj2 (C2 R))]; reflexivity.
Qed.

(** ** MU, MC, MM for functions without effects *)
Lemma da_call s0 f F ps p s args :
  computes s0 f F -> only_adds s0 s -> dens (st_heap s) args ps -> F ps p ->
  does_add (fun R => i_call R f args) s (fun v s' => den (st_heap s') v p).
Proof.
  intros C A D H. destruct (C s args ps p A D H) as (v & s' & E & A1 & Dv).
  exists v, s'. auto.
Qed.
Lemma dens_of h vs ps : dens h vs ps <-> Forall2 (den h) vs ps.
Proof. split; induction 1; constructor; auto. Qed.

Lemma da_results text o es s vs s1 p :
  op_by_arity (length es) (s_ text) = Some o -> MainProof.plain_rvals o = true ->
  operands s es vs s1 ->
  does_add (fun R => call_fun R (o_fun o) (map arg_of vs)) s1 (fun x s' => denx (st_heap s') x p) ->
  results s s1 (app text es) p.
Proof.
  intros Op Pl Os (x & s' & E & A & w & -> & D). exists w, s'.
  split; [eapply gives_ends; eassumption|auto].
Qed.
Lemma da_eq {A} (F G : interp -> M A) s (Q : A -> state -> Prop) :
  (forall R, F R = G R) -> does_add G s Q -> does_add F s Q.
Proof.
  intros E (a & s' & H & Ad & Qa). exists a, s'. split; [|auto].
  apply (ends_eq F G s s a s'); [intros R; rewrite E; reflexivity|exact H].
Qed.
Lemma da_list vs qs s :
  dens (st_heap s) vs qs ->
  does_add (fun _ => v <- new_list vs;; xret v) s (fun x s' => denx (st_heap s') x (PList qs)).
Proof.
  intros D. apply da_yields. eapply yields_bind; [apply yields_new_list; exact D|].
  intros v s' _ Dv. apply yields_ret. exists v. auto.
Qed.

(** Going through an object and building a list. *)
Lemma da_each s1 it p l (G : interp -> hval -> M hval) (P : pval -> pval -> Prop) r :
  den (st_heap s1) it p -> elems p l -> (forall v, steady (fun R => G R v)) ->
  Forall2 P l r ->
  (forall v x y s, only_adds s1 s -> den (st_heap s) v x -> P x y ->
     does_add (fun R => G R v) s (fun w s' => den (st_heap s') w y)) ->
  does_add (fun R => items <- h_iter it;; rs <- mmap (G R) items;; v <- new_list rs;; xret v) s1
           (fun x s' => denx (st_heap s') x (PList r)).
Proof.
  intros D E SG H K.
  destruct (iter_visits _ _ _ _ D E) as (vs & s2 & E2 & A2 & D2 & _).
  assert (S1 : forall items : list hval, steady (fun R => rs <- mmap (G R) items;; v <- new_list rs;; xret v)).
  { intros items. apply steady_bind; [apply steady_map, SG|intros ?; apply steady_const]. }
  apply (da_bind (fun _ => h_iter it) (fun R items => rs <- mmap (G R) items;; v <- new_list rs;; xret v)
           s1 (fun a s' => a = vs /\ s' = s2) _ (steady_const _) S1).
  { exists vs, s2. split; [apply ends_const; exact E2|]. split; [apply adv_only_adds; exact A2|auto]. }
  intros a s' _ [-> ->]. apply adv_only_adds in A2.
  apply (da_bind (fun R => mmap (G R) vs) (fun _ rs => v <- new_list rs;; xret v) s2
           (fun bs s' => Forall2 (fun b x => den (st_heap s') b x) bs r)).
  - apply steady_map, SG.
  - intros ?. apply steady_const.
  - apply (da_map G (fun s' b x => den (st_heap s') b x) s2); [exact SG| | |apply adds_refl].
    + intros s3 s4 b x A Db. eapply adds_den; eassumption.
    + apply dens_of in D2. clear E E2. revert r H. induction D2 as [|v x vs l Dv D2 IH]; intros r H;
        inversion H as [|? y ? r' Pxy H']; subst; [constructor|]. constructor.
      * intros s3 A3. apply (K v x y); [eapply adds_trans; eassumption| |exact Pxy].
        eapply adds_den; eassumption.
      * apply IH. exact H'.
  - intros rs s3 A3 Dr. apply da_list. apply dens_of. exact Dr.
Qed.

Theorem unpack_value s e1 e2 f it s1 p l F r :
  applied s e1 e2 f it s1 -> den (st_heap s1) it p -> elems p l ->
  computes s1 f F -> Forall2 (fun x y => exists xs, elems x xs /\ F xs y) l r ->
  results s s1 (app "MU" [e1; e2]) (PList r).
Proof.
  intros [Fn Os] D E C H. destruct (elems_object _ _ _ _ D E) as [I B].
  destruct (swap_fun f it Fn I B) as [W1 W2].
  set (G := fun (R : interp) (x : hval) => args <- unpack "MAPUNPACK" x;; i_call R f args).
  assert (SG : forall v, steady (fun R => G R v)).
  { intros v. apply steady_bind; [apply steady_const|]. intros; apply steady_call. }
  assert (Da : does_add (fun R => items <- h_iter it;; rs <- mmap (G R) items;; v <- new_list rs;; xret v) s1
           (fun x s' => denx (st_heap s') x (PList r))).
  { eapply da_each; [exact D|exact E|exact SG|exact H|]. intros v x y s0 A0 Dv (xs & Ex & Fx).
    apply (da_bind (fun _ => unpack "MAPUNPACK" v) (fun R args => i_call R f args) s0
             (fun a s' => dens (st_heap s') a xs) _ (steady_const _) (fun a => steady_call f a)).
    - apply da_yields. pose proof (yields_iter v x xs s0 Dv (elems_p_iter _ _ Ex)) as Y.
      destruct Ex; inversion Dv; subst; exact Y.
    - intros args s3 A3 Da. eapply da_call; [exact C|eapply adds_trans; eassumption|exact Da|exact Fx]. }
  assert (Q : forall R, MAPUNPACK R f it = (items <- h_iter it;; rs <- mmap (G R) items;; v <- new_list rs;; xret v)
     /\ MAPUNPACK R it f = (items <- h_iter it;; rs <- mmap (G R) items;; v <- new_list rs;; xret v)).
  { intros R. unfold MAPUNPACK. rewrite W1, W2, I, (proj1 (function_block _ Fn)). split; reflexivity. }
  destruct Os as [Os|Os]; (eapply da_results; [reflexivity|reflexivity|exact Os|]);
    (eapply da_eq; [|exact Da]); intros R; apply Q.
Qed.

Theorem mapmap_value s e1 e2 f it s1 p l F r :
  applied s e1 e2 f it s1 -> den (st_heap s1) it p -> elems p l ->
  computes s1 f F ->
  Forall2 (fun x y => exists xs ys, elems x xs /\ y = PList ys /\ Forall2 (fun a b => F [a] b) xs ys) l r ->
  results s s1 (app "MM" [e1; e2]) (PList r).
Proof.
  intros [Fn Os] D E C H. destruct (elems_object _ _ _ _ D E) as [I B].
  destruct (swap_fun f it Fn I B) as [W1 W2].
  set (G := fun (R : interp) (x : hval) => r <- i_fun R F_MAP [AVal (XR f); AVal (XR x)];; to_r r).
  assert (SG : forall v, steady (fun R => G R v)).
  { intros v. apply steady_bind; [apply steady_fun|]. intros; apply steady_const. }
  assert (Da : does_add (fun R => items <- h_iter it;; rs <- mmap (G R) items;; v <- new_list rs;; xret v) s1
           (fun x s' => denx (st_heap s') x (PList r))).
  { eapply da_each; [exact D|exact E|exact SG|exact H|]. intros v x y s0 A0 Dv (xs & ys & Ex & -> & Fx).
    destruct (elems_object _ _ _ _ Dv Ex) as [Iv Bv].
    apply (da_bind (fun R => i_fun R F_MAP [AVal (XR f); AVal (XR v)]) (fun R a => to_r a) s0
             (fun a s' => denx (st_heap s') a (PList ys)) _ (steady_fun _ _) (fun a => steady_const _)).
    - assert (Db : does_add (fun R => items <- h_iter v;; rs <- mmap (fun it0 => i_call R f [it0]) items;;
                              w <- new_list rs;; xret w) s0
                     (fun a s' => denx (st_heap s') a (PList ys))).
      { eapply (da_each s0 v x xs (fun R it0 => i_call R f [it0])); [exact Dv|exact Ex| |exact Fx|].
        - intros; apply steady_call.
        - intros v1 x1 y1 s3 A3 D1 F1. eapply da_call; [exact C|eapply adds_trans; eassumption| |exact F1].
          repeat constructor. exact D1. }
      destruct Db as (a & s' & E1 & A1 & Q1). exists a, s'. split; [|auto].
      apply fun_ends.
      destruct E1 as [n E1]. exists n. change (MAP (run n) f v s0 = Ok a s').
      unfold MAP. rewrite (proj1 (swap_fun f v Fn Iv Bv)), Iv. destruct Fn as (sts & rt & ->).
      rewrite <- E1. unfold mbind. destruct (h_iter v s0); reflexivity.
    - intros a s3 A3 (w & -> & Dw). apply da_ret. exact Dw. }
  assert (Q : forall R, MAPMAP R f it = (items <- h_iter it;; rs <- mmap (G R) items;; v <- new_list rs;; xret v)
     /\ MAPMAP R it f = (items <- h_iter it;; rs <- mmap (G R) items;; v <- new_list rs;; xret v)).
  { intros R. unfold MAPMAP. rewrite W1, W2, I. split; reflexivity. }
  destruct Os as [Os|Os]; (eapply da_results; [reflexivity|reflexivity|exact Os|]);
    (eapply da_eq; [|exact Da]); intros R; apply Q.
Qed.

Lemma da_zs (z0 n : Z) s0 (G : interp -> Z -> M hval) (g : Z -> pval) :
  (forall z, steady (fun R => G R z)) ->
  (forall z s, z0 <= z < n -> only_adds s0 s ->
     does_add (fun R => G R z) s (fun w s' => den (st_heap s') w (g z))) ->
  forall s, only_adds s0 s ->
  does_add (fun R => mmap (G R) (zseq z0 n)) s
           (fun bs s' => dens (st_heap s') bs (map g (zseq z0 n))).
Proof.
  intros SG K s A.
  assert (H : does_add (fun R => mmap (G R) (zseq z0 n)) s
     (fun bs s' => Forall2 (fun b x => den (st_heap s') b x) bs (map g (zseq z0 n)))).
  { apply (da_map G (fun s' b x => den (st_heap s') b x) s0); [exact SG| | |exact A].
    - intros s3 s4 b x A3 Db. eapply adds_den; eassumption.
    - assert (I : forall z, In z (zseq z0 n) -> z0 <= z < n).
      { intros z Iz. unfold zseq in Iz. apply in_map_iff in Iz. destruct Iz as (i & <- & Ii).
        apply in_seq in Ii. lia. }
      induction (zseq z0 n) as [|z l IH]; cbn [map]; constructor.
      + intros s3 A3. apply K; [apply I; left; reflexivity|exact A3].
      + apply IH. intros y Iy. apply I. right. exact Iy. }
  destruct H as (bs & s' & E & A1 & H). exists bs, s'. split; [exact E|]. split; [exact A1|].
  apply dens_of. exact H.
Qed.

Lemma grid_value s1 f F rows cols g :
  is_function f -> computes s1 f F ->
  (forall r c, 0 <= r < rows -> 0 <= c < cols -> F [whole r; whole c] (g r c)) ->
  forall s, only_adds s1 s ->
  does_add (fun R => grid_of R f rows cols) s
    (fun x s' => denx (st_heap s') x (PList (map (fun r => PList (map (g r) (zseq 0 cols))) (zseq 0 rows)))).
Proof.
  intros Fn C H s A. unfold grid_of. rewrite (proj1 (function_block _ Fn)).
  set (cell := fun (R : interp) (r c : Z) => a <- fresh (scal_Z r);; b <- fresh (scal_Z c);; i_call R f [a; b]).
  set (line := fun (R : interp) (r : Z) => row <- mmap (cell R r) (zseq 0 cols);; new_list row).
  assert (SC : forall r c, steady (fun R => cell R r c)).
  { intros r c. apply steady_bind; [apply steady_const|]. intros a.
    apply steady_bind; [apply steady_const|]. intros b. apply steady_call. }
  assert (SL : forall r, steady (fun R => line R r)).
  { intros r. apply steady_bind; [|intros; apply steady_const].
    apply (steady_map (fun R => cell R r)). apply SC. }
  apply (da_bind (fun R => mmap (line R) (zseq 0 rows)) (fun _ rs => v <- new_list rs;; xret v) s
     (fun bs s' => dens (st_heap s') bs (map (fun r => PList (map (g r) (zseq 0 cols))) (zseq 0 rows)))).
  - apply steady_map, SL.
  - intros; apply steady_const.
  - apply (da_zs 0 rows s1 line (fun r => PList (map (g r) (zseq 0 cols)))); [exact SL| |exact A].
    intros r s2 Hr A2.
    apply (da_bind (fun R => mmap (cell R r) (zseq 0 cols)) (fun _ row => new_list row) s2
       (fun bs s' => dens (st_heap s') bs (map (g r) (zseq 0 cols)))).
    + apply (steady_map (fun R => cell R r)). apply SC.
    + intros; apply steady_const.
    + apply (da_zs 0 cols s1 (fun R => cell R r) (g r)); [apply SC| |exact A2].
      intros c s3 Hc A3.
      apply (da_bind (fun _ => fresh (scal_Z r)) (fun R a => b <- fresh (scal_Z c);; i_call R f [a; b]) s3
               (fun a s' => den (st_heap s') a (whole r))).
      * apply steady_const.
      * intros a. apply steady_bind; [apply steady_const|]. intros b. apply steady_call.
      * apply da_yields, yields_fresh.
      * intros a s4 A4 Da.
        apply (da_bind (fun _ => fresh (scal_Z c)) (fun R b => i_call R f [a; b]) s4
                 (fun b s' => den (st_heap s') b (whole c))).
        -- apply steady_const.
        -- intros b. apply steady_call.
        -- apply da_yields, yields_fresh.
        -- intros b s5 A5 Db. eapply da_call; [exact C| | |apply (H r c Hr Hc)].
           ++ eapply adds_trans; [exact A3|]. eapply adds_trans; eassumption.
           ++ repeat constructor; [eapply adds_den; eassumption|exact Db].
    + intros row s3 A3 Dr. apply da_yields. eapply yields_weaken; [apply yields_new_list; exact Dr|].
      intros w s' _ Dw. exact Dw.
  - intros rs s2 A2 Dr. apply da_list. exact Dr.
Qed.

Lemma index_list lc objs z s :
  nth_error (st_heap s) lc = Some (OL objs) ->
  h_index (HList lc) (IInt z) s = Ok (seq_index objs z) s.
Proof. intros E. cbn [h_index]. unfold load_list, load, mbind. rewrite E. reflexivity. Qed.
Lemma index_first {A} (a : A) l : seq_index (a :: l) 0 = Some a.
Proof. unfold seq_index. rewrite Zmod_0_l. reflexivity. Qed.
Lemma index_second {A} (a b : A) l : seq_index (a :: b :: l) 1 = Some b.
Proof.
  unfold seq_index. rewrite Z.mod_small; [reflexivity|]. unfold zlen. cbn [length]. lia.
Qed.

Theorem coords_value s e1 e2 f it s1 p rows cols F g :
  is_function f -> operands s [e1; e2] [f; it] s1 -> den (st_heap s1) it p -> dimensions p rows cols ->
  computes s1 f F ->
  (forall r c, 0 <= r < rows -> 0 <= c < cols -> F [whole r; whole c] (g r c)) ->
  results s s1 (app "MC" [e1; e2])
    (PList (map (fun r => PList (map (g r) (ints_from 0 (Z.to_nat cols))))
                (ints_from 0 (Z.to_nat rows)))).
Proof.
  intros Fn Os D Dm C H. eapply da_results; [reflexivity|reflexivity|exact Os|].
  assert (Z0 : forall n, ints_from 0 (Z.to_nat n) = zseq 0 n).
  { intros n. pose proof (zseq_ints_from 0 n) as E. rewrite Z.sub_0_r in E. symmetry. exact E. }
  rewrite !Z0. pose proof (grid_value s1 f F rows cols g Fn C H s1 (adds_refl s1)) as G.
  destruct G as (x & s' & E & A & Q). exists x, s'. split; [|auto].
  assert (Eq : forall R, MAPCOORDS R f it s1 = grid_of R f rows cols s1).
  { intros R. unfold MAPCOORDS. destruct Dm as [n|r c l|n].
    - inversion D as [l t Nl| | | | |]; subst. unfold load_str, load, mbind at 1. unfold mbind at 1.
      rewrite Nl. cbn [mret]. unfold mret. rewrite NumFacts.scalar_int_str. reflexivity.
    - inversion D as [| |lc objs ps Nl Ds| | |]; subst.
      inversion Ds as [|a pa objs1 ps1 Da Ds1]; subst.
      inversion Ds1 as [|b pb objs2 ps2 Db Ds2]; subst.
      inversion Da as [la ta Na| | | | |]; inversion Db as [lb tb Nb| | | | |]; subst.
      rewrite (bind_step _ _ _ _ _ (len_elems _ _ _ _ D (elems_list _))).
      replace (zlen (whole r :: whole c :: l) =? 0) with false by (symmetry; apply Z.eqb_neq; unfold zlen; cbn [length]; lia).
      cbv beta iota.
      rewrite (bind_step _ _ _ _ _ (index_list lc _ 0 s1 Nl)), (bind_step _ _ _ _ _ (index_list lc _ 1 s1 Nl)).
      rewrite index_first, index_second.
      rewrite (bind_step _ _ _ _ _ (load_str_ok _ _ _ Na)), (bind_step _ _ _ _ _ (load_str_ok _ _ _ Nb)).
      rewrite !NumFacts.scalar_int_str. reflexivity.
    - inversion D as [| |lc objs ps Nl Ds| | |]; subst.
      inversion Ds as [|a pa objs1 ps1 Da Ds1]; subst. inversion Ds1; subst.
      inversion Da as [la ta Na| | | | |]; subst.
      rewrite (bind_step _ _ _ _ _ (len_elems _ _ _ _ D (elems_list _))).
      change (zlen [whole n] =? 0) with false.
      cbv beta iota.
      rewrite (bind_step _ _ _ _ _ (index_list lc _ 0 s1 Nl)), (bind_step _ _ _ _ _ (index_list lc _ 1 s1 Nl)).
      change (seq_index [HScal la] 1) with (Some (HScal la)). rewrite index_first.
      rewrite !(bind_step _ _ _ _ _ (load_str_ok _ _ _ Na)).
      rewrite !NumFacts.scalar_int_str. reflexivity. }
  apply (ends_eq (fun R => MAPCOORDS R f it) (fun R => grid_of R f rows cols) s1 s1 x s' Eq). exact E.
Qed.
