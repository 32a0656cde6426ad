(** * Consequences of [step_related]

    More fuel, scopes, warnings, output and input. *)

From Coq Require Import String List NArith ZArith Bool Arith Lia.
From Verif Require Import PyStr PyRe PyNum Tokens OpFun OpTable Scan Parse
                          PTypes Ops OpsSeq Apply Heap Exec ExecRel
                          SpecHeap HeapProof.
Import ListNotations.
Local Open Scope string_scope.
Local Open Scope list_scope.
Local Open Scope Z_scope.

(** ** More fuel does not change a result *)

Definition le_fuel : mrel :=
  fun A m m' => forall s, m s = Fuel \/ m s = m' s.

Lemma le_fuel_refl A (m : M A) : le_fuel A m m.
Proof. intros s. right. reflexivity. Qed.

Lemma le_fuel_closed : closed le_fuel.
Proof.
  constructor; intros; try apply le_fuel_refl.
  - intros s. unfold mbind. destruct (H s) as [E|E]; rewrite E; [now left|].
    destruct (m' s) as [a s'|e s'|]; auto. apply H0.
  - intros s. unfold catch_type. destruct (H s) as [E|E]; rewrite E; auto.
  - intros s. unfold swallow_type. destruct (H s) as [E|E]; rewrite E; auto.
    destruct (m' s) as [a s'|[|[]|] s'|]; auto.
  - intros s. unfold in_scope, mbind, push_scope.
    set (s1 := set_scopes _ _ _). destruct (H s1) as [E|E]; rewrite E; auto.
Qed.

Lemma run_le_fuel n : related le_fuel (run n) (run (S n)).
Proof.
  induction n as [|n IH].
  - constructor; intros; intros s; left; reflexivity.
  - exact (step_related _ le_fuel_closed _ _ IH).
Qed.

Lemma le_fuel_trans A (m1 m2 m3 : M A) :
  le_fuel A m1 m2 -> le_fuel A m2 m3 -> le_fuel A m1 m3.
Proof.
  intros H1 H2 s. destruct (H1 s) as [E|E]; [now left|]. rewrite E. apply H2.
Qed.

Lemma run_le_fuel_add k n : related le_fuel (run n) (run (k + n)).
Proof.
  induction k as [|k IH]; simpl.
  - constructor; intros; apply le_fuel_refl.
  - pose proof (run_le_fuel (k + n)) as L.
    constructor; intros; eapply le_fuel_trans;
      first [apply IH | apply L].
Qed.

Lemma run_le_fuel_le n n' : (n <= n')%nat -> related le_fuel (run n) (run n').
Proof.
  intros L. replace n' with ((n' - n) + n)%nat by lia. apply run_le_fuel_add.
Qed.

(** ** Predicates on state changes

    A relation between the state before and after. *)
Definition steps (K : bool -> state -> state -> Prop) : mrel :=
  fun A m _ => forall s, match m s with
                         | Ok _ s' => K true s s'
                         | Err _ s' => K false s s'
                         | Fuel => True
                         end.

(** ** Scopes *)

(** The current scope may change its variables; more scopes may be open
    afterwards, but after normal termination only if a TypeError was
    swallowed. *)
Definition scope_rel (normal : bool) (s s' : state) : Prop :=
  (st_swallowed s <= st_swallowed s')%nat /\
  match st_scopes s with
  | [] => True
  | sc :: rest =>
    exists extra vars,
      st_scopes s' = extra ++ mkscope (sc_fun sc) vars :: rest /\
      st_depth s' = st_depth s + Z.of_nat (length extra) /\
      (normal = true -> st_swallowed s' = st_swallowed s -> extra = [])
  end.

Lemma scope_refl b s : scope_rel b s s.
Proof.
  split; [lia|]. destruct (st_scopes s) as [|[f v] rest]; [exact I|].
  exists [], v. simpl. split; [reflexivity|]. split; [lia|auto].
Qed.
Lemma scope_same b s s' :
  st_scopes s' = st_scopes s -> st_depth s' = st_depth s ->
  st_swallowed s' = st_swallowed s -> scope_rel b s s'.
Proof.
  intros E1 E2 E3. split; [lia|]. destruct (st_scopes s) as [|[f v] rest]; [exact I|].
  exists [], v. rewrite E1. simpl. split; [reflexivity|]. split; [lia|auto].
Qed.
Lemma scope_trans b s1 s2 s3 :
  scope_rel true s1 s2 -> scope_rel b s2 s3 -> scope_rel b s1 s3.
Proof.
  intros [L1 H1] [L2 H2]. split; [lia|].
  destruct (st_scopes s1) as [|[f v] rest]; [exact I|].
  destruct H1 as (x1 & v1 & E1 & D1 & N1). rewrite E1 in H2.
  destruct x1 as [|e x1]; simpl in H2.
  - destruct H2 as (x2 & v2 & E2 & D2 & N2).
    exists x2, v2. split; [exact E2|]. split; [simpl in D1; lia|].
    intros Hb Es. apply N2; [exact Hb|lia].
  - destruct H2 as (x2 & v2 & E2 & D2 & N2).
    exists (x2 ++ mkscope (sc_fun e) v2 :: x1), v1.
    split; [rewrite E2, <- app_assoc; reflexivity|].
    split; [rewrite app_length; cbn [length] in *; lia|].
    intros _ Es. discriminate N1; [reflexivity|lia].
Qed.

Ltac same := apply scope_same; reflexivity.
Lemma scope_closed : closed (steps scope_rel).
Proof.
  constructor.
  - intros A a s. apply scope_refl.
  - intros A B m m' f f' Hm Hf s. unfold mbind. specialize (Hm s).
    destruct (m s) as [a s1|e s1|]; auto.
    specialize (Hf a s1).
    destruct (f a s1) as [b s2|e s2|]; auto; exact (scope_trans _ _ _ _ Hm Hf).
  - intros A e s. apply scope_refl.
  - intros A s. exact I.
  - intros c s. same.
  - intros l s. unfold load. destruct (nth_error _ _); apply scope_refl.
  - intros l c s. unfold store. destruct (nth_error _ _); same.
  - intros s. apply scope_refl.
  - intros s. apply scope_refl.
  - intros s. apply scope_refl.
  - intros s. apply scope_refl.
  - intros w s. unfold mwarn. destruct (st_warn s); same.
  - intros t s. same.
  - intros s. unfold read_line. destruct (st_in s); same.
  - intros x s. unfold get_var.
    destruct (local_name x); [destruct (st_scopes s)|]; apply scope_refl.
  - intros x v s. unfold set_var.
    destruct (local_name x); [|same].
    destruct (st_scopes s) as [|sc rest] eqn:E; [apply scope_refl|].
    split; [reflexivity|]. rewrite E.
    exists [], ((x, v) :: sc_vars sc). simpl.
    split; [reflexivity|]. split; [lia|auto].
  - intros e s. same.
  - intros s. unfold current_fun. destruct (st_scopes s); apply scope_refl.
  - intros k s. same.
  - intros t s. same.
  - intros v s. unfold dread. destruct (read_val _ _ _); apply scope_refl.
  - intros p s. unfold fresh. destruct (alloc_val _ _). same.
  - intros v s. unfold copy. destruct (copy_val _ _ _) as [[]|]; same.
  - intros A m m' Hm s. unfold catch_type. specialize (Hm s).
    destruct (m s) as [a s1|[|[]|] s1|]; auto.
  - intros A m m' h h' Hm Hh s. unfold swallow_type. specialize (Hm s).
    assert (T : forall s1, scope_rel false s s1 ->
      match h (set_swallowed (S (st_swallowed s1)) s1) with
      | Ok _ s' => scope_rel true s s'
      | Err _ s' => scope_rel false s s'
      | Fuel => True
      end).
    { intros s1 H1. set (s2 := set_swallowed _ _).
      assert (H2 : scope_rel true s s2).
      { destruct H1 as [L1 H1]. split; [simpl; lia|].
        destruct (st_scopes s) as [|sc rest]; [exact I|].
        destruct H1 as (x1 & v1 & E1 & D1 & _). exists x1, v1.
        split; [exact E1|]. split; [exact D1|]. simpl. lia. }
      specialize (Hh s2).
      destruct (h s2) as [a s3|e s3|]; auto; exact (scope_trans _ _ _ _ H2 Hh). }
    destruct (m s) as [a s1|[|[]|] s1|]; auto. apply T. exact Hm.
  - intros sc m m' Hm s. unfold in_scope, mbind, push_scope, pop_scope, mret.
    set (s1 := set_scopes _ _ _). specialize (Hm s1).
    assert (G : forall b s2, scope_rel b s1 s2 ->
       (st_swallowed s <= st_swallowed s2)%nat /\
       exists extra vars,
         st_scopes s2 = extra ++ mkscope (sc_fun sc) vars :: st_scopes s /\
         st_depth s2 = st_depth s + 1 + Z.of_nat (length extra) /\
         (b = true -> st_swallowed s2 = st_swallowed s -> extra = [])).
    { intros b s2 [L H]. split; [exact L|]. exact H. }
    assert (F : forall b s2, scope_rel b s1 s2 -> scope_rel false s s2).
    { intros b s2 H. destruct (G b s2 H) as (L & x & v & E & D & N).
      split; [exact L|].
      destruct (st_scopes s) as [|sc0 rest]; [exact I|]. destruct sc0 as [f0 v0].
      exists (x ++ [mkscope (sc_fun sc) v]), v0.
      split; [rewrite E, <- app_assoc; reflexivity|].
      split; [rewrite app_length; cbn [length]; lia|discriminate]. }
    destruct (m s1) as [v s2|e s2|]; auto; [|exact (F _ _ Hm)].
    destruct (st_scopes s2) as [|sc2 rest2] eqn:E2; [exact (F _ _ Hm)|].
    destruct (G true s2 Hm) as (L & x & vs & E & D & N).
    split; [exact L|]. rewrite E2 in E.
    destruct (st_scopes s) as [|[f0 v0] rest]; [exact I|].
    destruct x as [|e x].
    + injection E as E1 E3. exists [], v0. simpl.
      split; [exact E3|]. split; [simpl in D; lia|auto].
    + injection E as E1 E3. exists (x ++ [mkscope (sc_fun sc) vs]), v0. simpl.
      split; [rewrite E3, <- app_assoc; reflexivity|].
      split; [rewrite app_length; cbn [length] in *; lia|].
      intros _ Es. discriminate N; auto.
Qed.

(** A call leaves all scopes exactly as they were. *)
Lemma call_scopes n f args s v s' :
  i_call (run n) f args s = Ok v s' ->
  (st_swallowed s <= st_swallowed s')%nat /\
  exists extra,
    st_scopes s' = extra ++ st_scopes s /\
    st_depth s' = st_depth s + Z.of_nat (length extra) /\
    (st_swallowed s' = st_swallowed s -> extra = []).
Proof.
  destruct n as [|n]; [discriminate|]. cbn [run step i_call].
  unfold call. intros H.
  unfold mbind at 1 in H.
  destruct (new_scope f args s) as [sc s0|e s0|] eqn:E0; try discriminate.
  assert (S0 : st_scopes s0 = st_scopes s /\ st_depth s0 = st_depth s /\
               st_swallowed s0 = st_swallowed s).
  { unfold new_scope, mbind, mret in E0.
    destruct (copies args s) as [cp s1|e1 s1|] eqn:E1; try discriminate.
    unfold new_list, alloc, mbind, mret in E0. injection E0 as _ E0. subst s0.
    simpl.
    clear - E1. revert s cp s1 E1. unfold copies.
    induction args as [|a args IH]; cbn [mmap]; intros s cp s1 E.
    - injection E as _ E. subst. auto.
    - unfold mbind, mret in E. unfold copy at 1 in E.
      destruct (copy_val _ a _) as [[a' h]|]; try discriminate.
      destruct (mmap copy args _) as [ys s2|e2 s2|] eqn:E2; try discriminate.
      injection E as _ E. subst s2. destruct (IH _ _ _ E2) as (A & B & C).
      simpl in A, B, C. auto. }
  destruct S0 as (Q1 & Q2 & Q3).
  set (body := match f with HBlock sts ret => _ | _ => _ end) in H.
  assert (Hm : steps scope_rel hval body body).
  { unfold body. pose proof (run_related _ scope_closed n) as HR.
    destruct f; try (intros z; apply scope_refl).
    apply (cl_bind _ scope_closed).
    - apply (r_run_stmts _ scope_closed _ _ HR).
    - intros _. apply (r_rval_tree _ scope_closed _ _ HR). }
  unfold in_scope, mbind, push_scope, pop_scope, mret in H.
  set (s1 := set_scopes _ _ _) in H. specialize (Hm s1).
  destruct (body s1) as [v2 s2|e s2|]; try discriminate.
  destruct (st_scopes s2) as [|sc2 rest2] eqn:E2; try discriminate.
  injection H as _ H. subst s'. simpl.
  destruct Hm as [L Hm]. subst s1.
  cbn [set_scopes st_swallowed st_scopes st_depth] in L, Hm.
  destruct Hm as (x & vs & E & D & N). split; [lia|].
  rewrite E2 in E.
  destruct x as [|e x]; injection E as E3 E4.
  - exists []. rewrite <- Q1. simpl in *. split; [exact E4|]. split; [lia|auto].
  - exists (x ++ [mkscope (sc_fun sc) vs]). rewrite <- Q1.
    split; [rewrite E4, <- app_assoc; reflexivity|].
    split; [rewrite app_length; cbn [length] in *; lia|].
    intros Es. discriminate N; auto. lia.
Qed.

(** ** Warnings *)

(** Equal up to the warning flag and the warnings printed. *)
Definition same_but_warnings (s1 s2 : state) : Prop :=
  set_diag [] (mkst (st_heap s1) (st_vars s1) (st_scopes s1) (st_depth s1)
                    (st_args s1) (st_main s1) (st_in s1) (st_out s1) [] false
                    (st_fmt s1) (st_tao s1) (st_swallowed s1) (st_rand s1))
  = set_diag [] (mkst (st_heap s2) (st_vars s2) (st_scopes s2) (st_depth s2)
                    (st_args s2) (st_main s2) (st_in s2) (st_out s2) [] false
                    (st_fmt s2) (st_tao s2) (st_swallowed s2) (st_rand s2)).
Definition same_outcome {A} (r1 r2 : outcome A) : Prop :=
  match r1, r2 with
  | Ok a s1, Ok b s2 => a = b /\ same_but_warnings s1 s2
  | Err e s1, Err e' s2 => e = e' /\ same_but_warnings s1 s2
  | Fuel, Fuel => True
  | _, _ => False
  end.
Definition warn_indep : mrel :=
  fun A m _ => forall s1 s2, same_but_warnings s1 s2 ->
                             same_outcome (m s1) (m s2).

Lemma warn_closed : closed warn_indep.
Proof.
  assert (S : forall s1 s2, same_but_warnings s1 s2 ->
    exists d w, s2 = mkst (st_heap s1) (st_vars s1) (st_scopes s1) (st_depth s1)
                          (st_args s1) (st_main s1) (st_in s1) (st_out s1) d w
                          (st_fmt s1) (st_tao s1) (st_swallowed s1) (st_rand s1)).
  { intros s1 [h v sc d a m i o dg w f t sw g] E. unfold same_but_warnings in E.
    simpl in E. injection E. intros; subst. exists dg, w. reflexivity. }
  constructor.
  - intros A a s1 s2 E. split; [reflexivity|exact E].
  - intros A B m m' f f' Hm Hf s1 s2 E. unfold mbind. specialize (Hm s1 s2 E).
    destruct (m s1) as [a t1|e t1|], (m s2) as [b t2|e' t2|]; try contradiction;
      try exact Hm.
    destruct Hm as [<- Q]. exact (Hf a t1 t2 Q).
  - intros A e s1 s2 E. split; [reflexivity|exact E].
  - intros A s1 s2 E. exact I.
  - intros c s1 s2 E. destruct (S _ _ E) as (d & w & ->). split; reflexivity.
  - intros l s1 s2 E. destruct (S _ _ E) as (d & w & ->). unfold load. simpl.
    destruct (nth_error _ _); split; reflexivity.
  - intros l c s1 s2 E. destruct (S _ _ E) as (d & w & ->). unfold store. simpl.
    destruct (nth_error _ _); split; reflexivity.
  - intros s1 s2 E. destruct (S _ _ E) as (d & w & ->). split; reflexivity.
  - intros s1 s2 E. destruct (S _ _ E) as (d & w & ->). split; reflexivity.
  - intros s1 s2 E. destruct (S _ _ E) as (d & w & ->). split; reflexivity.
  - intros s1 s2 E. destruct (S _ _ E) as (d & w & ->). split; reflexivity.
  - intros x s1 s2 E. destruct (S _ _ E) as (d & w & ->). unfold mwarn. simpl.
    destruct w, (st_warn s1); split; reflexivity.
  - intros x s1 s2 E. destruct (S _ _ E) as (d & w & ->). split; reflexivity.
  - intros s1 s2 E. destruct (S _ _ E) as (d & w & ->). unfold read_line. simpl.
    destruct (st_in s1) eqn:Q; (split; [reflexivity|]);
      unfold same_but_warnings; simpl; rewrite ?Q; reflexivity.
  - intros x s1 s2 E. destruct (S _ _ E) as (d & w & ->). unfold get_var. simpl.
    destruct (local_name x); [destruct (st_scopes s1) eqn:Q|];
      (split; [reflexivity|]);
      unfold same_but_warnings; simpl; rewrite ?Q; reflexivity.
  - intros x v s1 s2 E. destruct (S _ _ E) as (d & w & ->). unfold set_var. simpl.
    destruct (local_name x); [destruct (st_scopes s1) eqn:Q|];
      (split; [reflexivity|]);
      unfold same_but_warnings; simpl; rewrite ?Q; reflexivity.
  - intros x s1 s2 E. destruct (S _ _ E) as (d & w & ->). split; reflexivity.
  - intros s1 s2 E. destruct (S _ _ E) as (d & w & ->). unfold current_fun. simpl.
    destruct (st_scopes s1) eqn:Q; (split; [reflexivity|]);
      unfold same_but_warnings; simpl; rewrite ?Q; reflexivity.
  - intros k s1 s2 E. destruct (S _ _ E) as (d & w & ->). split; reflexivity.
  - intros t s1 s2 E. destruct (S _ _ E) as (d & w & ->). split; reflexivity.
  - intros v s1 s2 E. destruct (S _ _ E) as (d & w & ->). unfold dread.
    cbn [st_heap]. destruct (read_val _ _ _); split; reflexivity.
  - intros p s1 s2 E. destruct (S _ _ E) as (d & w & ->). unfold fresh.
    cbn [st_heap]. destruct (alloc_val _ _); split; reflexivity.
  - intros p s1 s2 E. destruct (S _ _ E) as (d & w & ->). unfold copy.
    cbn [st_heap]. destruct (copy_val _ _ _) as [[]|]; split; reflexivity.
  - intros A m m' Hm s1 s2 E. unfold catch_type. specialize (Hm s1 s2 E).
    destruct (m s1) as [a t1|e t1|], (m s2) as [b t2|e' t2|]; try contradiction;
      try exact Hm.
    destruct Hm as [<- Q]. destruct e as [|[]|]; split; auto.
  - intros A m m' h h' Hm Hh s1 s2 E. unfold swallow_type.
    specialize (Hm s1 s2 E).
    destruct (m s1) as [a t1|e t1|], (m s2) as [b t2|e' t2|]; try contradiction;
      try exact Hm.
    destruct Hm as [<- Q]. destruct e as [|[]|]; try (split; auto; fail).
    apply Hh. destruct (S _ _ Q) as (d & w & ->). reflexivity.
  - intros sc m m' Hm s1 s2 E.
    unfold in_scope, mbind, push_scope, pop_scope, mret.
    assert (E' : same_but_warnings
                   (set_scopes (sc :: st_scopes s1) (st_depth s1 + 1) s1)
                   (set_scopes (sc :: st_scopes s2) (st_depth s2 + 1) s2)).
    { destruct (S _ _ E) as (d & w & ->). reflexivity. }
    specialize (Hm _ _ E').
    destruct (m (set_scopes (sc :: st_scopes s1) _ _)) as [a t1|e t1|],
             (m (set_scopes (sc :: st_scopes s2) _ _)) as [b t2|e' t2|];
      try contradiction; try exact Hm.
    destruct Hm as [<- Q]. destruct (S _ _ Q) as (d & w & ->). simpl.
    destruct (st_scopes t1) eqn:Q'; (split; [reflexivity|]);
      unfold same_but_warnings; simpl; rewrite ?Q'; reflexivity.
Qed.

(** ** Output, input and the fixed parts of the state *)

Definition io_rel (_ : bool) (s s' : state) : Prop :=
  (exists t, st_out s' = st_out s ++ t) /\
  (exists k, st_in s = k ++ st_in s') /\
  st_fmt s' = st_fmt s /\ st_tao s' = st_tao s /\ st_warn s' = st_warn s /\
  st_args s' = st_args s /\ st_main s' = st_main s /\
  (length (st_heap s) <= length (st_heap s'))%nat.
Lemma io_refl b s : io_rel b s s.
Proof.
  unfold io_rel. repeat split; auto; exists []; auto using app_nil_r.
  symmetry. apply app_nil_r.
Qed.
Lemma io_trans a b c s1 s2 s3 : io_rel a s1 s2 -> io_rel b s2 s3 -> io_rel c s1 s3.
Proof.
  intros ([t1 A1] & [k1 B1] & C1 & D1 & E1 & F1 & G1 & H1)
         ([t2 A2] & [k2 B2] & C2 & D2 & E2 & F2 & G2 & H2).
  unfold io_rel. repeat split; try congruence; try lia.
  - exists (t1 ++ t2). rewrite A2, A1, app_assoc. reflexivity.
  - exists (k1 ++ k2). rewrite B1, B2, app_assoc. reflexivity.
Qed.

(** Copying only adds cells. *)
Lemma copy_all_grows f l :
  (forall v h v' h', f v h = Some (v', h') -> exists t, h' = h ++ t) ->
  forall h l' h', copy_all f l h = Some (l', h') -> exists t, h' = h ++ t.
Proof.
  intros H. induction l as [|x l IH]; intros h l' h' E; cbn [copy_all] in E.
  - injection E as _ <-. exists []. symmetry. apply app_nil_r.
  - destruct (f x h) as [[y h1]|] eqn:E1; [|discriminate].
    destruct (copy_all f l h1) as [[ys h2]|] eqn:E2; [|discriminate].
    injection E as _ <-. destruct (H _ _ _ _ E1) as [t ->].
    destruct (IH _ _ _ E2) as [t' ->]. exists (t ++ t'). symmetry. apply app_assoc.
Qed.
Lemma copy_val_grows n : forall v h v' h',
  copy_val n v h = Some (v', h') -> exists t, h' = h ++ t.
Proof.
  induction n as [|n IH]; intros [l|r fl|l|lo hi|sts r|] h v' h' E;
    cbn [copy_val] in E; try discriminate;
    try (injection E as _ <-; exists []; symmetry; apply app_nil_r);
    try (destruct (nth_error h l) as [[]|]; try discriminate;
         injection E as _ <-; eexists; reflexivity).
  destruct (nth_error h l) as [[|items|]|]; try discriminate.
  destruct (copy_all (copy_val n) items h) as [[items' h1]|] eqn:E1; [|discriminate].
  injection E as _ <-. destruct (copy_all_grows _ _ IH _ _ _ E1) as [t ->].
  exists (t ++ [OL items']). symmetry. apply app_assoc.
Qed.

Lemma io_heap b s h :
  (length (st_heap s) <= length h)%nat -> io_rel b s (set_heap h s).
Proof.
  intros L. unfold io_rel. repeat split; auto; exists []; auto.
  symmetry. apply app_nil_r.
Qed.
Lemma io_same b s s' :
  st_heap s' = st_heap s -> st_out s' = st_out s -> st_in s' = st_in s ->
  st_fmt s' = st_fmt s -> st_tao s' = st_tao s -> st_warn s' = st_warn s ->
  st_args s' = st_args s -> st_main s' = st_main s -> io_rel b s s'.
Proof.
  intros A B C D E F G H. unfold io_rel. rewrite A, B, C. repeat split; auto.
  - exists []. symmetry. apply app_nil_r.
  - exists []. reflexivity.
Qed.

Lemma io_closed : closed (steps io_rel).
Proof.
  constructor; unfold steps; intros.
  - apply io_refl.
  - specialize (H s). unfold mbind. destruct (m s) as [a s1|e s1|]; auto.
    specialize (H0 a s1). destruct (f a s1) as [b s2|e s2|]; auto;
      eapply io_trans; eauto.
  - apply io_refl.
  - exact I.
  - apply io_heap. rewrite app_length. lia.
  - unfold load. destruct (nth_error _ _); apply io_refl.
  - unfold store. destruct (nth_error _ _) eqn:E; [|apply io_refl].
    apply io_heap. unfold hset. rewrite set_nth_length; [lia|].
    apply nth_error_Some. congruence.
  - apply io_refl.
  - apply io_refl.
  - apply io_refl.
  - apply io_refl.
  - unfold mwarn. destruct (st_warn s) eqn:W; [apply io_same; reflexivity|apply io_refl].
  - unfold put_out. unfold io_rel. simpl. repeat split; auto.
    + exists t. reflexivity.
    + exists []. reflexivity.
  - unfold read_line. destruct (st_in s) as [|l rest] eqn:E; [apply io_refl|].
    unfold io_rel. simpl. repeat split; auto.
    + exists []. symmetry. apply app_nil_r.
    + exists [l]. exact E.
  - unfold get_var. destruct (local_name x); [destruct (st_scopes s)|]; apply io_refl.
  - unfold set_var. destruct (local_name x); [destruct (st_scopes s)|];
      try apply io_refl; apply io_same; reflexivity.
  - apply io_same; reflexivity.
  - unfold current_fun. destruct (st_scopes s); apply io_refl.
  - apply io_same; reflexivity.
  - apply io_same; reflexivity.
  - unfold dread. destruct (read_val _ _ _); apply io_refl.
  - unfold fresh. destruct (alloc_val_spec p (st_heap s)) as (v & t & E & _).
    rewrite E. apply io_heap. rewrite app_length. lia.
  - unfold copy. destruct (copy_val _ _ _) as [[v' h']|] eqn:E; [|apply io_refl].
    destruct (copy_val_grows _ _ _ _ _ E) as [t ->].
    apply io_heap. rewrite app_length. lia.
  - unfold catch_type. specialize (H s).
    destruct (m s) as [a s1|[|[]|] s1|]; exact H.
  - unfold swallow_type. specialize (H s).
    destruct (m s) as [a s1|[|[]|] s1|]; try exact H.
    specialize (H0 (set_swallowed (S (st_swallowed s1)) s1)).
    destruct (h (set_swallowed _ s1)) as [a s2|e s2|]; auto;
      (eapply io_trans; [exact H|]);
      (eapply io_trans with (a := true) (s2 := set_swallowed (S (st_swallowed s1)) s1);
       [apply io_same; reflexivity|exact H0]).
  - unfold in_scope, mbind, push_scope.
    set (s1 := set_scopes _ _ _). specialize (H s1).
    assert (K : forall b, io_rel b s s1) by (intros; apply io_same; reflexivity).
    destruct (m s1) as [a s2|e s2|]; auto.
    unfold pop_scope. destruct (st_scopes s2).
    + eapply io_trans; [apply (K true)|exact H].
    + eapply io_trans; [apply (K true)|]. eapply io_trans; [exact H|].
      instantiate (1 := true). apply io_same; reflexivity.
  Unshelve. all: exact true.
Qed.

Lemma run_io n : related (steps io_rel) (run n) (run n).
Proof. exact (run_related _ io_closed n). Qed.
