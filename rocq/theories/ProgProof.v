(** * Whole programs: fuel, warnings, output *)

From Coq Require Import String List NArith ZArith Bool Arith Lia.
From Verif Require Import PyStr PyRe PyNum Tokens OpFun OpTable Scan Parse
                          PTypes Ops OpsSeq Apply Heap Exec ExecRel
                          SpecHeap HeapProof ExecInv.
Import ListNotations.
Local Open Scope list_scope.

(** A relation kept by the primitives and by starting a program is kept by
    [exec_program]. *)
Section Program.
  Variable P : mrel.
  Hypothesis C : closed P.
  Hypothesis start : forall args main,
    P unit (fun s => Ok tt (set_program args main s))
           (fun s => Ok tt (set_program args main s)).
  Lemma r_exec_program n n' prog args :
    related P (run n) (run n') ->
    P unit (exec_program n prog args) (exec_program n' prog args).
  Proof.
    intros HR. unfold exec_program. destruct prog as [|t prog]; [apply (cl_ret _ C)|].
    apply (cl_bind _ C); [apply start|]. intros _.
    apply (cl_bind _ C);
      [match goal with |- P _ wipe_globals _ => apply (r_wipe _ C) end|]. intros _.
    apply (cl_bind _ C); [apply (re_call _ _ _ HR)|]. intros v.
    apply (r_PRINT _ C).
  Qed.
  Lemma r_fresh_args args :
    P _ (fresh_all (map PScal args)) (fresh_all (map PScal args)).
  Proof. apply (r_mmap _ C). intros. apply (cl_fresh _ C). Qed.
  Lemma r_program n n' prog args :
    related P (run n) (run n') ->
    P unit (wipe_globals;; vs <- fresh_all (map PScal args);; exec_program n prog vs)
           (wipe_globals;; vs <- fresh_all (map PScal args);; exec_program n' prog vs).
  Proof.
    intros HR.
    apply (cl_bind _ C);
      [match goal with |- P _ wipe_globals _ => apply (r_wipe _ C) end|]. intros _.
    apply (cl_bind _ C); [apply r_fresh_args|]. intros vs.
    apply r_exec_program. exact HR.
  Qed.
End Program.

Lemma run_text_fuel n n' fmt w input text args :
  (n <= n')%nat ->
  run_text n fmt w input text args <> Fuel ->
  run_text n' fmt w input text args = run_text n fmt w input text args.
Proof.
  intros L. unfold run_text.
  destruct (scan text) as [ts ig| |]; try reflexivity.
  destruct (parse_program ts) as [sts rest|]; [|reflexivity].
  intros N.
  pose proof (r_program le_fuel le_fuel_closed
    (fun a m => le_fuel_refl _ _) n n' sts args (run_le_fuel_le n n' L)
    (blank_state fmt w input None)) as [E|E]; [contradiction|symmetry; exact E].
Qed.

Lemma start_warn args main :
  warn_indep unit (fun s => Ok tt (set_program args main s))
             (fun s => Ok tt (set_program args main s)).
Proof.
  intros s1 s2 E. cbn [same_outcome]. split; [reflexivity|].
  unfold same_but_warnings in *. injection E as E1 E2 E3 E4 E5 E6 E7 E8 E9 E10 E11.
  unfold set_program, set_diag. simpl. congruence.
Qed.
Lemma run_text_warn n fmt input text args :
  same_outcome (run_text n fmt true input text args)
               (run_text n fmt false input text args).
Proof.
  assert (B : same_but_warnings (blank_state fmt true input None)
                                (blank_state fmt false input None)) by reflexivity.
  unfold run_text.
  destruct (scan text) as [ts ig| |]; try (split; [reflexivity|exact B]).
  destruct (parse_program ts) as [sts rest|]; [|split; [reflexivity|exact B]].
  exact (r_program warn_indep warn_closed start_warn n n sts args
           (run_related _ warn_closed n) _ _ B).
Qed.

(** Without the flag no warning is printed. *)
Definition quiet (_ : bool) (s s' : state) : Prop :=
  st_warn s = false -> st_warn s' = false /\ st_diag s' = st_diag s.
Lemma quiet_refl b s : quiet b s s.
Proof. intros H. auto. Qed.
Lemma quiet_trans a b c s1 s2 s3 : quiet a s1 s2 -> quiet b s2 s3 -> quiet c s1 s3.
Proof.
  intros H1 H2 W. destruct (H1 W) as [W2 D2]. destruct (H2 W2) as [W3 D3].
  split; congruence.
Qed.
Lemma quiet_same b s s' :
  st_warn s' = st_warn s -> st_diag s' = st_diag s -> quiet b s s'.
Proof. intros A B W. split; congruence. Qed.
Lemma quiet_closed : closed (steps quiet).
Proof.
  constructor; unfold steps; intros.
  - apply quiet_refl.
  - specialize (H s). unfold mbind. destruct (m s) as [a s1|e s1|]; auto.
    specialize (H0 a s1). destruct (f a s1) as [b s2|e s2|]; auto;
      eapply quiet_trans; eauto.
  - apply quiet_refl.
  - exact I.
  - apply quiet_same; reflexivity.
  - unfold load. destruct (nth_error _ _); apply quiet_refl.
  - unfold store. destruct (nth_error _ _); apply quiet_same; reflexivity.
  - apply quiet_refl.
  - apply quiet_refl.
  - apply quiet_refl.
  - apply quiet_refl.
  - unfold mwarn. destruct (st_warn s) eqn:W; [|apply quiet_refl].
    intros H. congruence.
  - apply quiet_same; reflexivity.
  - unfold read_line. destruct (st_in s); apply quiet_same; reflexivity.
  - unfold get_var. destruct (local_name x); [destruct (st_scopes s)|]; apply quiet_refl.
  - unfold set_var. destruct (local_name x); [destruct (st_scopes s)|];
      apply quiet_same; reflexivity.
  - apply quiet_same; reflexivity.
  - unfold current_fun. destruct (st_scopes s); apply quiet_refl.
  - apply quiet_same; reflexivity.
  - apply quiet_same; reflexivity.
  - unfold dread. destruct (read_val _ _ _); apply quiet_refl.
  - unfold fresh. destruct (alloc_val _ _). apply quiet_same; reflexivity.
  - unfold copy. destruct (copy_val _ _ _) as [[v' h']|]; apply quiet_same; reflexivity.
  - unfold catch_type. specialize (H s).
    destruct (m s) as [a s1|[|[]|] s1|]; exact H.
  - unfold swallow_type. specialize (H s).
    destruct (m s) as [a s1|[|[]|] s1|]; try exact H.
    specialize (H0 (set_swallowed (S (st_swallowed s1)) s1)).
    destruct (h (set_swallowed _ s1)) as [a s2|e s2|]; auto;
      (eapply quiet_trans; [exact H|exact H0]).
  - unfold in_scope, mbind, push_scope.
    set (s1 := set_scopes _ _ _). specialize (H s1).
    destruct (m s1) as [a s2|e s2|]; auto.
    unfold pop_scope. destruct (st_scopes s2); exact H.
  Unshelve. all: exact true.
Qed.

Lemma run_text_quiet n fmt input text args :
  match run_text n fmt false input text args with
  | Ok _ s | Err _ s => st_diag s = []
  | Fuel => True
  end.
Proof.
  unfold run_text.
  destruct (scan text) as [ts ig| |]; try reflexivity.
  destruct (parse_program ts) as [sts rest|]; [|reflexivity].
  pose proof (r_program (steps quiet) quiet_closed
    (fun a m s => quiet_same true _ _ eq_refl eq_refl) n n sts args
    (run_related _ quiet_closed n) (blank_state fmt false input None)) as H.
  revert H. generalize (wipe_globals;;
    vs <- fresh_all (map PScal args);; exec_program n sts vs).
  intros m H. destruct (m (blank_state fmt false input None)) as [u s|e s|]; auto;
    apply H; reflexivity.
Qed.

(** What a call can change besides variables and the heap. *)
Lemma call_io n f args s v s' :
  i_call (run n) f args s = Ok v s' ->
  (exists t, st_out s' = st_out s ++ t) /\ (exists k, st_in s = k ++ st_in s') /\
  st_fmt s' = st_fmt s /\ st_warn s' = st_warn s /\ st_args s' = st_args s /\
  st_main s' = st_main s.
Proof.
  intros E. pose proof (re_call _ _ _ (run_io n) f args s) as H. rewrite E in H.
  destruct H as (A & B & C & _ & D & E1 & F & _). auto 10.
Qed.
