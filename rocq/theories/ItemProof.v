(** * Proofs for item-wise operators *)

From Coq Require Import String List NArith ZArith Bool Arith Lia.
From Verif Require Import PyStr PyRe PyNum Tokens OpFun OpTable Unparse PTypes
                          Ops OpsSeq Apply StrFacts NumFacts NumCmp Spec SpecRun SpecList
                          PFacts RunOp SeqProof SeqProof2 NumProof2.
Import ListNotations.
Local Open Scope string_scope.
Local Open Scope list_scope.
Local Open Scope Z_scope.

Lemma mapM_ext_in : forall {A B} (f g : A -> pm B) l,
  (forall x, In x l -> f x = g x) -> mapM f l = mapM g l.
Proof.
  intros A B f g l H. induction l as [|x l IH]; [reflexivity|]. cbn [mapM].
  rewrite (H x) by (left; reflexivity). rewrite IH by (intros; apply H; right; assumption).
  reflexivity.
Qed.

Definition total_depth (args : list pval) : nat :=
  fold_right (fun v n => (pdepth v + n)%nat) O args.

Lemma iter_depth : forall v l x, is_list_or_range v = true -> p_iter v = Val l -> In x l ->
  (pdepth x < pdepth v)%nat.
Proof.
  intros [| |l'|lo [u|]| |] l x Hv H I; try discriminate; cbn [p_iter] in H; injection H as <-.
  - apply list_depth, I.
  - apply in_map_iff in I. destruct I as (z & <- & _). simpl. lia.
Qed.

Lemma expands_list : forall fl v, expands fl v = true -> is_list_or_range v = true.
Proof. intros fl [| | | | |]; simpl; congruence. Qed.

Lemma each_depth : forall {B} (k : list pval -> pm B) v (f g : pval -> pm pval),
  is_list_or_range v = true ->
  (forall x, (pdepth x < pdepth v)%nat -> f x = g x) ->
  (do l <- (do items <- lift (p_iter v); mapM f items); k l)
  = (do l <- (do items <- lift (p_iter v); mapM g items); k l).
Proof.
  intros B k v f g Hv H. destruct (p_iter v) as [l|e] eqn:P; [|reflexivity].
  rewrite !bind_lift_val. rewrite (mapM_ext_in f g l); [reflexivity|].
  intros x Hx. apply H. eapply iter_depth; eassumption.
Qed.

Lemma apply_fuel_enough : forall fmt o f f' args,
  (total_depth args < f)%nat -> (total_depth args < f')%nat ->
  apply_fuel fmt o f args = apply_fuel fmt o f' args.
Proof.
  intros fmt o f. induction f as [|f IH]; intros f' args Hf Hf'; [lia|].
  destruct f' as [|f']; [lia|]. cbn [apply_fuel].
  destruct (f_in_lambda (o_flags o) && existsb is_block args); [reflexivity|].
  destruct args as [|a [|b [|c args]]]; try reflexivity.
  - destruct (expands (o_flags o) a) eqn:E; [|reflexivity].
    pose proof (expands_list _ _ E) as L. apply each_depth; [exact L|].
    intros x Hx. apply IH; simpl in *; lia.
  - destruct (expands (o_flags o) a) eqn:Ea, (expands (o_flags o) b) eqn:Eb; cbn [orb andb];
      try reflexivity.
    + destruct (infinite a && infinite b); [reflexivity|]. f_equal.
      apply mapM_ext_in. intros [x y] Hp. cbn [fst snd].
      unfold zip_args in Hp.
      pose proof (in_combine_l _ _ _ _ Hp) as H1. pose proof (in_combine_r _ _ _ _ Hp) as H2.
      apply zip_items_depth in H1; [|eapply expands_list, Ea].
      apply zip_items_depth in H2; [|eapply expands_list, Eb].
      apply IH; simpl in *; lia.
    + apply each_depth; [eapply expands_list, Ea|]. intros x Hx. apply IH; simpl in *; lia.
    + apply each_depth; [eapply expands_list, Eb|]. intros x Hx. apply IH; simpl in *; lia.
Qed.

(** The equations of [apply_op]. *)
Lemma apply_op_one : forall fmt o a, is_list_or_range a = true -> expands (o_flags o) a = true ->
  apply_op fmt o [a]
  = do l <- (do items <- lift (p_iter a); mapM (fun x => apply_op fmt o [x]) items);
    ret (PList l).
Proof.
  intros fmt o a L E. unfold apply_op at 1. cbn [apply_fuel].
  replace (existsb is_block [a]) with false by (destruct a; try discriminate; reflexivity).
  rewrite andb_false_r, E. apply each_depth; [exact L|]. intros x Hx.
  apply apply_fuel_enough; unfold total_depth; simpl; lia.
Qed.

Lemma apply_op_left : forall fmt o a b, expands (o_flags o) a = true ->
  expands (o_flags o) b = false -> is_block b = false ->
  apply_op fmt o [a; b]
  = do l <- (do items <- lift (p_iter a); mapM (fun x => apply_op fmt o [x; b]) items);
    ret (PList l).
Proof.
  intros fmt o a b Ea Eb Ib. pose proof (expands_list _ _ Ea) as L.
  unfold apply_op at 1. cbn [apply_fuel].
  replace (existsb is_block [a; b]) with false
    by (destruct a; try discriminate; simpl; rewrite Ib; reflexivity).
  rewrite andb_false_r, Ea, Eb. cbn [orb andb].
  apply each_depth; [exact L|]. intros x Hx.
  apply apply_fuel_enough; unfold total_depth; simpl; lia.
Qed.

Lemma apply_op_right : forall fmt o a b, expands (o_flags o) a = false ->
  expands (o_flags o) b = true -> is_block a = false ->
  apply_op fmt o [a; b]
  = do l <- (do items <- lift (p_iter b); mapM (fun y => apply_op fmt o [a; y]) items);
    ret (PList l).
Proof.
  intros fmt o a b Ea Eb Ia. pose proof (expands_list _ _ Eb) as L.
  unfold apply_op at 1. cbn [apply_fuel].
  replace (existsb is_block [a; b]) with false
    by (simpl; rewrite Ia; destruct b; try discriminate; reflexivity).
  rewrite andb_false_r, Ea, Eb. cbn [orb andb].
  apply each_depth; [exact L|]. intros x Hx.
  apply apply_fuel_enough; unfold total_depth; simpl; lia.
Qed.

Lemma zip_items_elems : forall v l n, is_list_or_range v = true -> elems v l -> zip_items n v = l
  /\ size_hint v = length l /\ infinite v = false.
Proof.
  intros v l n L E. destruct E as [s|l|lo u]; [discriminate|repeat split|].
  pose proof (elems_det _ _ _ (elems_range_ints lo u) (elems_range lo u)) as D.
  split; [exact D|]. split; [|reflexivity]. apply (f_equal (@length pval)) in D. rewrite map_length in D. exact D.
Qed.

Lemma apply_op_both : forall fmt o a b la lb, expands (o_flags o) a = true ->
  expands (o_flags o) b = true -> elems a la -> elems b lb ->
  apply_op fmt o [a; b]
  = do l <- mapM (fun p => apply_op fmt o [fst p; snd p]) (combine la lb);
    ret (PList (l ++ skipn (length lb) la ++ skipn (length la) lb)).
Proof.
  intros fmt o a b la lb Ea Eb Ha Hb.
  pose proof (expands_list _ _ Ea) as La. pose proof (expands_list _ _ Eb) as Lb.
  unfold apply_op at 1. cbn [apply_fuel].
  replace (existsb is_block [a; b]) with false
    by (destruct a; try discriminate; destruct b; try discriminate; reflexivity).
  rewrite andb_false_r, Ea, Eb. cbn [orb andb]. unfold zip_args.
  destruct (zip_items_elems a la (size_hint b) La Ha) as (Z1 & S1 & I1).
  destruct (zip_items_elems b lb (size_hint a) Lb Hb) as (Z2 & S2 & I2).
  destruct (zip_items_elems a la 0 La Ha) as (Z3 & _ & _).
  destruct (zip_items_elems b lb 0 Lb Hb) as (Z4 & _ & _).
  rewrite I1, I2, Z3, Z4. cbn [andb orb].
  rewrite (mapM_ext_in _ (fun p => apply_op fmt o [fst p; snd p])).
  - rewrite Z1, Z2, S1, S2. reflexivity.
  - intros [x y] Hp. cbn [fst snd].
    pose proof (in_combine_l _ _ _ _ Hp) as H1. pose proof (in_combine_r _ _ _ _ Hp) as H2.
    apply zip_items_depth in H1; [|exact La]. apply zip_items_depth in H2; [|exact Lb].
    apply apply_fuel_enough; unfold total_depth; simpl; lia.
Qed.

(** From the monadic map to the relation of the specification. *)
Lemma mapM_each : forall {A} (f : A -> pm pval) l, each_run f l (mapM f l).
Proof.
  intros A f l. induction l as [|x l IH]; cbn [mapM]; [constructor|].
  destruct (f x) as [w [v|e]] eqn:E; cbn [bind]; [|constructor; exact E].
  destruct (mapM f l) as [ws [vs|e]].
  - pose proof (each_ok f x l w v ws (Val vs) E IH) as H. cbn in *. rewrite app_nil_r. exact H.
  - pose proof (each_ok f x l w v ws (Exn e) E IH) as H. exact H.
Qed.

Lemma bind_listed : forall (m : pm (list pval)) extra,
  (do l <- m; ret (PList (l ++ extra))) = listed extra m.
Proof.
  intros [w [v|e]] extra; [|reflexivity]. unfold listed. cbn. rewrite app_nil_r. reflexivity.
Qed.
Lemma bind_listed0 : forall (m : pm (list pval)),
  (do l <- m; ret (PList l)) = listed [] m.
Proof.
  intros [w [v|e]]; [|reflexivity]. unfold listed. cbn. rewrite !app_nil_r. reflexivity.
Qed.

Lemma itemwise_unary : forall fmt text o v l,
  op_by_arity 1 (s_ text) = Some o -> itemwise o v = true -> elems v l ->
  exists out, each_run (fun x => run_op fmt text [x]) l out
    /\ run_op fmt text [v] = listed [] out.
Proof.
  intros fmt text o v l Ho Hi E. unfold run_op. cbn [length]. rewrite Ho.
  eexists. split; [apply mapM_each|].
  rewrite apply_op_one; [|destruct v; try discriminate; reflexivity|destruct v; exact Hi].
  rewrite (elems_p_iter _ _ E), bind_lift_val. apply bind_listed0.
Qed.

Lemma itemwise_left : forall fmt text o a b l,
  op_by_arity 2 (s_ text) = Some o -> itemwise o a = true -> itemwise o b = false ->
  is_block b = false -> elems a l ->
  exists out, each_run (fun x => run_op fmt text [x; b]) l out
    /\ run_op fmt text [a; b] = listed [] out.
Proof.
  intros fmt text o a b l Ho Ha Hb Ib E. unfold run_op. cbn [length]. rewrite Ho.
  eexists. split; [apply mapM_each|].
  rewrite apply_op_left; [|destruct a; exact Ha|destruct b; exact Hb|exact Ib].
  rewrite (elems_p_iter _ _ E), bind_lift_val. apply bind_listed0.
Qed.

Lemma itemwise_right : forall fmt text o a b l,
  op_by_arity 2 (s_ text) = Some o -> itemwise o a = false -> itemwise o b = true ->
  is_block a = false -> elems b l ->
  exists out, each_run (fun y => run_op fmt text [a; y]) l out
    /\ run_op fmt text [a; b] = listed [] out.
Proof.
  intros fmt text o a b l Ho Ha Hb Ib E. unfold run_op. cbn [length]. rewrite Ho.
  eexists. split; [apply mapM_each|].
  rewrite apply_op_right; [|destruct a; exact Ha|destruct b; exact Hb|exact Ib].
  rewrite (elems_p_iter _ _ E), bind_lift_val. apply bind_listed0.
Qed.

Lemma itemwise_both : forall fmt text o a b la lb,
  op_by_arity 2 (s_ text) = Some o -> itemwise o a = true -> itemwise o b = true ->
  elems a la -> elems b lb ->
  exists out, each_run (fun p => run_op fmt text [fst p; snd p]) (combine la lb) out
    /\ run_op fmt text [a; b] = listed (skipn (length lb) la ++ skipn (length la) lb) out.
Proof.
  intros fmt text o a b la lb Ho Ha Hb Ea Eb. unfold run_op. cbn [length]. rewrite Ho.
  eexists. split; [apply mapM_each|].
  rewrite (apply_op_both fmt o a b la lb); [|destruct a; exact Ha|destruct b; exact Hb|exact Ea|exact Eb].
  apply bind_listed.
Qed.
