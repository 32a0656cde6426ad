(** * Loops and the history variables *)

From Coq Require Import String List NArith ZArith Bool Arith Lia.
From Verif Require Import PyStr PyRe PyNum Tokens OpFun OpTable Unparse
                          PTypes Ops OpsSeq Apply Spec StrFacts PFacts SeqProof ItemProof RunOp
                          NumProof
                          Heap Exec SpecHeap HeapProof ExecRel ExecInv EvalProof
                          SpecScan SpecVars VarProof CtlProof.
Import ListNotations.
Local Open Scope string_scope.
Local Open Scope list_scope.
Local Open Scope Z_scope.

(** ** Computations with enough fuel *)

(** A computation that uses the interpreter, and its outcome with enough
    fuel. *)
Definition steady {A} (F : interp -> M A) : Prop :=
  forall R R', related le_fuel R R' -> le_fuel A (F R) (F R').
Definition ends {A} (F : interp -> M A) (s : state) (a : A) (s' : state) : Prop :=
  exists n, F (run n) s = Ok a s'.

Lemma more_ends {A} (F : interp -> M A) n m s a s' :
  steady F -> (n <= m)%nat -> F (run n) s = Ok a s' -> F (run m) s = Ok a s'.
Proof.
  intros S L E. destruct (S _ _ (run_le_fuel_le n m L) s) as [H|H]; congruence.
Qed.

Lemma ends_const {A} (m : M A) s a s' : ends (fun _ => m) s a s' <-> m s = Ok a s'.
Proof. split; [intros [_ E]; exact E|intros E; exists O; exact E]. Qed.
Lemma ends_bind {A B} (F : interp -> M A) (G : interp -> A -> M B) s b s' :
  steady F -> (forall a, steady (fun R => G R a)) ->
  ends (fun R => mbind (F R) (G R)) s b s' <->
  exists a s1, ends F s a s1 /\ ends (fun R => G R a) s1 b s'.
Proof.
  intros SF SG. split.
  - intros [n E]. bind_inv E. exists a, s0. split; [exists n; exact E0|exists n; exact E].
  - intros (a & s1 & [n E1] & [m E2]). exists (max n m).
    rewrite (bind_step _ _ _ _ _ (more_ends F n (max n m) _ _ _ SF ltac:(lia) E1)).
    exact (more_ends (fun R => G R a) m (max n m) _ _ _ (SG a) ltac:(lia) E2).
Qed.
Lemma ends_fun {A} (F : interp -> M A) s a s1 b s2 :
  steady F -> ends F s a s1 -> ends F s b s2 -> b = a /\ s2 = s1.
Proof.
  intros S [n E] [m E']. apply (more_ends F n (max n m) _ _ _ S ltac:(lia)) in E.
  apply (more_ends F m (max n m) _ _ _ S ltac:(lia)) in E'.
  rewrite E in E'. injection E' as -> ->. auto.
Qed.

Lemma steady_const {A} (m : M A) : steady (fun _ => m).
Proof. intros R R' _. apply le_fuel_refl. Qed.
Lemma steady_bind {A B} (F : interp -> M A) (G : interp -> A -> M B) :
  steady F -> (forall a, steady (fun R => G R a)) -> steady (fun R => mbind (F R) (G R)).
Proof.
  intros SF SG R R' H. apply (cl_bind _ le_fuel_closed); [exact (SF _ _ H)|].
  intros a. exact (SG a _ _ H).
Qed.
Lemma steady_stmt t : steady (fun R => i_stmt R t).
Proof. intros R R' H. apply (re_stmt _ _ _ H). Qed.
Lemma steady_eval t : steady (fun R => i_eval R t).
Proof. intros R R' H. apply (re_eval _ _ _ H). Qed.
Lemma steady_rval t : steady (fun R => rval_tree R t).
Proof. intros R R' H. apply (r_rval_tree _ le_fuel_closed _ _ H). Qed.
Lemma steady_body sts : steady (fun R => run_body R sts).
Proof. intros R R' H. apply (r_run_body _ le_fuel_closed _ _ H). Qed.
Lemma steady_stmts sts : steady (fun R => run_stmts R sts).
Proof. intros R R' H. apply (r_run_stmts _ le_fuel_closed _ _ H). Qed.
Lemma steady_cmd c l : steady (fun R => exec_cmd R c l).
Proof. intros R R' H. apply (r_exec_cmd _ le_fuel_closed _ _ H). Qed.
Lemma steady_while b c l : steady (fun R => i_while R b c l).
Proof. intros R R' H. apply (re_while _ _ _ H). Qed.
Lemma steady_repeat {A} k (F : interp -> M A) :
  steady F -> steady (fun R => mrepeat k (F R)).
Proof. intros S R R' H. apply (r_mrepeat _ le_fuel_closed). exact (S _ _ H). Qed.
Lemma steady_for {A B} (F : interp -> A -> M B) l :
  (forall a, steady (fun R => F R a)) -> steady (fun R => mfor (F R) l).
Proof. intros S R R' H. apply (r_mfor _ le_fuel_closed). intros x. exact (S x _ _ H). Qed.

(** ** Statements in sequence *)
Lemma ends_body sts : forall s s',
  ends (fun R => run_body R sts) s tt s' <-> does sts s s'.
Proof.
  induction sts as [|t sts IH]; intros s s'.
  - split; [intros [n E]; injection E as <-; constructor|].
    intros D. inversion D; subst. exists O. reflexivity.
  - unfold run_body. cbn [mfor].
    rewrite (ends_bind (fun R => i_stmt R t) (fun R _ => mfor (i_stmt R) sts));
      [|apply steady_stmt|intros _; apply steady_body].
    split.
    + intros (r & s1 & E1 & E2). econstructor; [exact E1|]. apply IH. exact E2.
    + intros D. inversion D; subst. exists r, s1. split; [assumption|]. apply IH. assumption.
Qed.

Lemma ends_repeat body k : forall s s',
  ends (fun R => mrepeat k (run_body R body)) s tt s' <-> times body k s s'.
Proof.
  induction k as [|k IH]; intros s s'; cbn [mrepeat].
  - split; [intros [n E]; injection E as <-; constructor|].
    intros D. inversion D; subst. exists O. reflexivity.
  - rewrite (ends_bind (fun R => run_body R body) (fun R _ => mrepeat k (run_body R body)));
      [|apply steady_body|intros _; apply steady_repeat; apply steady_body].
    split.
    + intros ([] & s1 & E1 & E2). econstructor; [apply ends_body; exact E1|]. apply IH. exact E2.
    + intros D. inversion D; subst. exists tt, s1. split; [apply ends_body; assumption|].
      apply IH. assumption.
Qed.

(** A command as a statement. *)
Lemma executes_cmd s c args r s' :
  executes s (TCmd c args) r s' <-> r = None /\ ends (fun R => exec_cmd R c args) s tt s'.
Proof.
  unfold executes. split.
  - intros [n E]. destruct n as [|n]; [discriminate|].
    change ((exec_cmd (run n) c args;; mret None) s = Ok r s') in E.
    bind_inv E. injection E as <- <-. destruct a. split; [reflexivity|exists n; exact E0].
  - intros [-> [n E]]. exists (S n).
    change ((exec_cmd (run n) c args;; mret (@None hval)) s = Ok None s').
    rewrite (bind_step _ _ _ _ _ E). reflexivity.
Qed.

Lemma load_str_ok s l t : nth_error (st_heap s) l = Some (OS t) -> load_str l s = Ok t s.
Proof. intros E. unfold load_str, load, mbind. rewrite E. reflexivity. Qed.

Lemma run_command text args c :
  command_of (s_ text) = Some c -> command_stmt text args = TCmd c args.
Proof. intros E. unfold command_stmt. rewrite E. reflexivity. Qed.

Lemma len_ok s v p l :
  den (st_heap s) v p -> elems p l -> is_list_or_range p = true ->
  h_len v s = Ok (Some (zlen l)) s.
Proof.
  intros D E L. destruct E as [t|l|lo u]; [discriminate| |].
  - inversion D; subst. cbn [h_len]. unfold load_list, load, mbind.
    match goal with E : nth_error _ _ = _ |- _ => rewrite E end.
    match goal with E : dens _ _ _ |- _ => apply dens_length in E;
      unfold mret, zlen; rewrite E end. reflexivity.
  - inversion D; subst. cbn [h_len]. unfold mret, zlen. rewrite map_length, <- zseq_ints_from, zseq_length.
    do 2 f_equal. unfold lower0. destruct lo; lia.
Qed.

(** ** L *)
Definition cmd_loop : command :=
  match command_of (s_ "L") with Some c => c | None => mkcmd [] C_LOOP [] end.
Lemma ends_loop s e body v s1 p k s' :
  gives s e v s1 -> den (st_heap s1) v p -> repetitions p k ->
  ends (fun R => exec_cmd R cmd_loop [e; TBlk body]) s tt s' <-> times body k s1 s'.
Proof.
  intros G D K.
  set (F := fun (R : interp) (v : hval) =>
     match v with
      | HNil => mret tt
      | HScal l => s <- load_str l;;
                   mrepeat (Z.to_nat (scalar_int s)) (run_body R body)
      | HList _ | HRange _ _ =>
        n <- h_len v;;
        match n with
        | Some n => mrepeat (Z.to_nat n) (run_body R body)
        | None => fail (EPy ValueError)
        end
      | _ => mwarn "LOOP"
      end).
  assert (SF : forall v, steady (fun R => F R v)).
  { intros w. destruct w; cbn [F]; try apply steady_const.
    - apply steady_bind; [apply steady_const|]. intros t. apply steady_repeat, steady_body.
    - apply steady_bind; [apply steady_const|]. intros [n|]; [apply steady_repeat, steady_body|].
      apply steady_const.
    - apply steady_bind; [apply steady_const|]. intros [n|]; [apply steady_repeat, steady_body|].
      apply steady_const. }
  change (ends (fun R => mbind (rval_tree R e) (F R)) s tt s' <-> times body k s1 s').
  rewrite (ends_bind (fun R => rval_tree R e) F _ _ _ (steady_rval e) SF).
  assert (X : (exists a s2, ends (fun R => rval_tree R e) s a s2 /\ ends (fun R => F R a) s2 tt s')
              <-> ends (fun R => F R v) s1 tt s').
  { split.
    - intros (a & s2 & E1 & E2).
      destruct (ends_fun _ _ _ _ _ _ (steady_rval e) G E1) as [-> ->]. exact E2.
    - intros E. exists v, s1. split; [exact G|exact E]. }
  rewrite X. clear X.
  assert (Y : forall m : M unit, ends (fun R => F R v) s1 tt s' <->
     ends (fun R => mrepeat k (run_body R body)) s1 tt s' ->
     ends (fun R => F R v) s1 tt s' <-> times body k s1 s').
  { intros _ H. rewrite H. apply ends_repeat. }
  apply (Y (mret tt)). clear Y.
  assert (Z : (forall R, F R v s1 = mrepeat k (run_body R body) s1) ->
     (ends (fun R => F R v) s1 tt s' <-> ends (fun R => mrepeat k (run_body R body)) s1 tt s')).
  { intros H. split; intros [n E]; exists n; [rewrite <- H|rewrite H]; exact E. }
  apply Z. clear Z. intros R. destruct K as [neg ds t Dc Nd|p l E L|].
  - inversion D; subst. cbn [F].
    match goal with E : nth_error _ _ = _ |- _ => rewrite (bind_step _ _ _ _ _ (load_str_ok _ _ _ E)) end.
    rewrite scalar_int_numeral by assumption. reflexivity.
  - assert (Q : F R v s1 = (n <- h_len v;; match n with
        | Some n => mrepeat (Z.to_nat n) (run_body R body)
        | None => fail (EPy ValueError) end) s1).
    { destruct E; [discriminate|..]; inversion D; subst; reflexivity. }
    rewrite Q, (bind_step _ _ _ _ _ (len_ok _ _ _ _ D E L)).
    unfold zlen. rewrite Nat2Z.id. reflexivity.
  - inversion D; subst. reflexivity.
Qed.
Theorem loop_does s e body v s1 p k s' :
  gives s e v s1 -> den (st_heap s1) v p -> repetitions p k ->
  executes s (command_stmt "L" [e; TBlk body]) None s' <-> times body k s1 s'.
Proof.
  intros G D K. rewrite (run_command "L" _ cmd_loop) by reflexivity.
  rewrite executes_cmd, (ends_loop s e body v s1 p k s' G D K). intuition.
Qed.

(** ** F *)
Definition cmd_for : command :=
  match command_of (s_ "F") with Some c => c | None => mkcmd [] C_FOR [] end.

Lemma does_io sts s s' : does sts s s' -> io_rel true s s'.
Proof.
  induction 1 as [s|t r ts s s1 s2 [n E] _ IH]; [apply io_refl|].
  eapply io_trans; [|exact IH]. pose proof (re_stmt _ _ _ (run_io n) t s) as H. rewrite E in H. exact H.
Qed.
Lemma for_each_ok x body vs : forall s s',
  ordinary s x ->
  ends (fun R => mfor (fun item => assign (LName x [] None) item;; run_body R body) vs) s tt s'
  <-> for_each x body vs s s'.
Proof.
  induction vs as [|v vs IH]; intros s s' Ox; cbn [mfor].
  - split; [intros [n E]; injection E as <-; constructor|].
    intros D. inversion D; subst. exists 0%nat. reflexivity.
  - rewrite (ends_bind (fun R => assign (LName x [] None) v;; run_body R body)
       (fun R _ => mfor (fun item => assign (LName x [] None) item;; run_body R body) vs)).
    2: { apply steady_bind; [apply steady_const|intros _; apply steady_body]. }
    2: { intros _. apply (steady_for (fun R item => assign (LName x [] None) item;; run_body R body)).
         intros w. apply steady_bind; [apply steady_const|intros _; apply steady_body]. }
    assert (Q : forall s2, ends (fun R => assign (LName x [] None) v;; run_body R body) s tt s2 <->
                exists s1, rebound x v s s1 /\ does body s1 s2).
    { intros s2. rewrite (ends_bind (fun _ => assign (LName x [] None) v) (fun R _ => run_body R body));
        [|apply steady_const|intros _; apply steady_body].
      split.
      - intros ([] & s1 & E1 & E2). exists s1. rewrite ends_const in E1.
        split; [apply assign_name_ok in E1; [exact E1|exact Ox]|apply ends_body; exact E2].
      - intros (s1 & Rb & D). exists tt, s1. split; [|apply ends_body; exact D].
        apply ends_const. apply assign_name_ok; [exact Ox|exact Rb]. }
    split.
    + intros ([] & s2 & E1 & E2). apply Q in E1. destruct E1 as (s1 & Rb & Db).
      econstructor; [exact Rb|exact Db|]. apply IH; [|exact E2].
      exact (io_ordinary _ _ _ _ (does_io _ _ _ Db) (rebound_ordinary _ _ _ _ _ Rb Ox)).
    + intros D. inversion D as [|? ? ? s1 s2 ? Rb Db Fb]; subst. exists tt, s2.
      split; [apply Q; eauto|]. apply IH; [|exact Fb].
      exact (io_ordinary _ _ _ _ (does_io _ _ _ Db) (rebound_ordinary _ _ _ _ _ Rb Ox)).
Qed.

Theorem for_does s x e body v s1 p l :
  ordinary s x -> gives s e v s1 -> den (st_heap s1) v p -> elems p l ->
  exists vs s2, only_adds s1 s2 /\ dens (st_heap s2) vs l /\
    forall s', executes s (command_stmt "F" [name x; e; TBlk body]) None s'
               <-> for_each x body vs s2 s'.
Proof.
  intros Ox G D E.
  destruct (yields_iter v p l s1 D (elems_p_iter _ _ E)) as (vs & s2 & E2 & A2 & D2).
  exists vs, s2. split; [apply adv_only_adds; exact A2|]. split; [exact D2|]. intros s'.
  assert (O2 : ordinary s2 x).
  { eapply adv_ordinary; [exact A2|]. exact (io_ordinary _ _ _ _ (gives_io _ _ _ _ G) Ox). }
  rewrite (run_command "F" _ cmd_for) by reflexivity.
  rewrite executes_cmd, <- (for_each_ok x body vs s2 s' O2).
  set (H := fun (R : interp) (a : xval) (v : hval) =>
     match a with
      | XL lv =>
        match v with
        | HBlock _ _ => mwarn "FOR"
        | _ => items <- h_iter v;;
               mfor (fun item => assign lv item;; run_body R body) items
        end
      | _ => fail (EPy AttributeError)
      end).
  assert (SH : forall a w, steady (fun R => H R a w)).
  { intros a w. destruct a as [w0|l0|o0]; unfold H; try apply steady_const.
    assert (Q : steady (fun R => items <- h_iter w;;
               mfor (fun item => assign l0 item;; run_body R body) items)).
    { apply steady_bind; [apply steady_const|]. intros items.
      apply (steady_for (fun R item => assign l0 item;; run_body R body)). intros u.
      apply steady_bind; [apply steady_const|intros _; apply steady_body]. }
    destruct w; try exact Q. apply steady_const. }
  change (ends (fun R => exec_cmd R cmd_for [name x; e; TBlk body]) s tt s')
    with (ends (fun R => mbind (i_eval R (name x)) (fun a => mbind (rval_tree R e) (H R a))) s tt s').
  assert (SG : forall a, steady (fun R => mbind (rval_tree R e) (H R a))).
  { intros a. apply steady_bind; [apply steady_rval|exact (SH a)]. }
  rewrite (ends_bind (fun R => i_eval R (name x))
             (fun R a => mbind (rval_tree R e) (H R a)) _ _ _ (steady_eval (name x)) SG).
  assert (Nm : ends (fun R => i_eval R (name x)) s (XL (LName x [] None)) s).
  { exists 1%nat. apply eval_name. exact Ox. }
  assert (Eq : forall R, H R (XL (LName x [] None)) v s1
     = mfor (fun item => assign (LName x [] None) item;; run_body R body) vs s2).
  { intros R. cbn [H].
    assert (B : h_block v = false) by (destruct E; inversion D; reflexivity).
    destruct v; try discriminate; rewrite (bind_step _ _ _ _ _ E2); reflexivity. }
  split.
  - intros [_ (a & s3 & E3 & E4)].
    destruct (ends_fun _ _ _ _ _ _ (steady_eval (name x)) Nm E3) as [-> ->].
    rewrite (ends_bind (fun R => rval_tree R e) (fun R => H R (XL (LName x [] None)))
              _ _ _ (steady_rval e) (SH _)) in E4.
    destruct E4 as (w & s5 & E5 & [n E6]).
    destruct (ends_fun _ _ _ _ _ _ (steady_rval e) G E5) as [-> ->].
    exists n. rewrite <- Eq. exact E6.
  - intros [n E6]. split; [reflexivity|]. exists (XL (LName x [] None)), s. split; [exact Nm|].
    rewrite (ends_bind (fun R => rval_tree R e) (fun R => H R (XL (LName x [] None)))
              _ _ _ (steady_rval e) (SH _)).
    exists v, s1. split; [exact G|]. exists n. rewrite Eq. exact E6.
Qed.

Lemma truth_iff v b s s' :
  truth v s = Ok b s' <-> s' = s /\ object_counts (st_heap s) v b.
Proof.
  split.
  - intros E. destruct v as [l|r n|l|lo hi|sts r|]; cbn [truth] in E.
    + unfold load_str, load, mbind, mret in E.
      destruct (nth_error (st_heap s) l) as [[t|items|cc]|] eqn:N; try discriminate.
      injection E as <- <-. split; [reflexivity|].
      apply (object_counts_value _ _ (PScal t)); [constructor; exact N|apply counts_bool; reflexivity].
    + injection E as <- <-. split; [reflexivity|].
      apply (object_counts_value _ _ (PPat r n)); [constructor|apply counts_bool].
      destruct r; reflexivity.
    + unfold load_list, load, mbind, mret in E.
      destruct (nth_error (st_heap s) l) as [[t|items|cc]|] eqn:N; try discriminate.
      injection E as <- <-. split; [reflexivity|]. constructor. exact N.
    + injection E as <- <-. split; [reflexivity|].
      apply (object_counts_value _ _ (PRange lo hi)); [constructor|apply counts_bool].
      reflexivity.
    + injection E as <- <-. split; [reflexivity|].
      destruct sts as [|t sts]; [|apply object_counts_block; left; discriminate].
      destruct r as [k|w| | | | ]; try (apply object_counts_block; right; discriminate).
      destruct w; try (apply object_counts_block; right; discriminate).
      apply (object_counts_value _ _ (PBlock [] (TVal PNil))).
      * constructor; constructor. constructor.
      * apply counts_bool. reflexivity.
    + injection E as <- <-. split; [reflexivity|].
      apply (object_counts_value _ _ PNil); [constructor|apply counts_bool; reflexivity].
  - intros [-> H]. destruct H as [v p b D C|l items N|sts r H].
    + apply counts_bool in C. rewrite (truth_ok _ _ _ D), C. reflexivity.
    + cbn [truth]. unfold load_list, load, mbind, mret. rewrite N. reflexivity.
    + cbn [truth]. unfold mret. do 2 f_equal. destruct sts as [|t sts]; [|reflexivity].
      destruct H as [H|H]; [congruence|]. destruct r as [k|w| | | | ]; try reflexivity.
      destruct w; try reflexivity. congruence.
Qed.

(** ** I *)
Definition cmd_if : command :=
  match command_of (s_ "I") with Some c => c | None => mkcmd [] C_IF [] end.
Theorem if_does s c yes no v s1 b s' :
  gives s c v s1 -> object_counts (st_heap s1) v b ->
  executes s (command_stmt "I" [c; TBlk yes; TBlk no]) None s'
  <-> does (if b then yes else no) s1 s'.
Proof.
  intros G Cb.
  rewrite (run_command "I" _ cmd_if) by reflexivity. rewrite executes_cmd, <- ends_body.
  set (H := fun (R : interp) (v : hval) =>
     b <- truth v;; run_body R (body (if b then TBlk yes else TBlk no))).
  assert (SH : forall w, steady (fun R => H R w)).
  { intros w. apply steady_bind; [apply steady_const|]. intros b0. apply steady_body. }
  change (ends (fun R => exec_cmd R cmd_if [c; TBlk yes; TBlk no]) s tt s')
    with (ends (fun R => mbind (rval_tree R c) (H R)) s tt s').
  rewrite (ends_bind (fun R => rval_tree R c) H _ _ _ (steady_rval c) SH).
  assert (Eq : forall R, H R v s1 = run_body R (if b then yes else no) s1).
  { intros R. unfold H.
    rewrite (bind_step _ _ _ _ _ (proj2 (truth_iff _ _ _ _) (conj eq_refl Cb))).
    destruct b; reflexivity. }
  split.
  - intros [_ (w & s2 & E1 & [n E2])].
    destruct (ends_fun _ _ _ _ _ _ (steady_rval c) G E1) as [-> ->].
    exists n. rewrite <- Eq. exact E2.
  - intros [n E2]. split; [reflexivity|]. exists v, s1. split; [exact G|].
    exists n. rewrite Eq. exact E2.
Qed.

(** ** W and T *)
Lemma while_ok sense c body : forall n s s',
  i_while (run n) sense c body s = Ok tt s' -> while_does sense c body s s'.
Proof.
  induction n as [|n IH]; intros s s' E; [discriminate|].
  change (while_loop (run n) sense c body s = Ok tt s') in E. unfold while_loop in E.
  bind_inv E. assert (G : gives s c a s0) by (exists n; exact E0).
  bind_inv E. apply truth_iff in E1. destruct E1 as [-> C].
  destruct (eqb a0 sense) eqn:B.
  - apply eqb_prop in B. subst a0. bind_inv E. destruct a0.
    eapply while_again; [exact G|exact C| |apply IH; exact E].
    apply ends_body. exists n. exact E1.
  - injection E as <-. eapply while_stop; [exact G|].
    destruct a0, sense; try discriminate; exact C.
Qed.
Lemma while_complete sense c body s s' :
  while_does sense c body s s' -> ends (fun R => i_while R sense c body) s tt s'.
Proof.
  intros H. induction H as [s v s1 [n E] C|s v s1 s2 s3 [n E] C B _ [m IH]].
  - exists (S n). change (while_loop (run n) sense c body s = Ok tt s1). unfold while_loop.
    rewrite (bind_step _ _ _ _ _ E).
    rewrite (bind_step _ _ _ _ _ (proj2 (truth_iff _ _ _ _) (conj eq_refl C))).
    destruct sense; reflexivity.
  - apply ends_body in B. destruct B as [k B]. set (j := max n (max m k)).
    exists (S j). change (while_loop (run j) sense c body s = Ok tt s3). unfold while_loop.
    rewrite (bind_step _ _ _ _ _ (more_rval n j _ _ _ ltac:(lia) E ltac:(discriminate))).
    rewrite (bind_step _ _ _ _ _ (proj2 (truth_iff _ _ _ _) (conj eq_refl C))), eqb_reflx.
    rewrite (bind_step _ _ _ _ _ (more_ends _ k j _ _ _ (steady_body body) ltac:(lia) B)).
    exact (more_ends _ m j _ _ _ (steady_while sense c body) ltac:(lia) IH).
Qed.

(** ** History *)
Lemma ends_stmts_cons t sts s s' :
  ends (fun R => run_stmts R (t :: sts)) s tt s' <->
  exists s1, ends (fun R => run_stmts R [t]) s tt s1 /\ ends (fun R => run_stmts R sts) s1 tt s'.
Proof.
  set (F := fun (R : interp) => r <- i_stmt R t;; match r with
                    | Some v => update_history v | None => mret tt end).
  assert (SF : steady F).
  { apply steady_bind; [apply steady_stmt|]. intros [v|]; apply steady_const. }
  change (ends (fun R => run_stmts R (t :: sts)) s tt s')
    with (ends (fun R => mbind (F R) (fun _ => run_stmts R sts)) s tt s').
  rewrite (ends_bind F (fun R _ => run_stmts R sts) _ _ _ SF (fun _ => steady_stmts sts)).
  assert (Q : forall s1, ends (fun R => run_stmts R [t]) s tt s1 <-> ends F s tt s1).
  { intros s1. change (ends (fun R => run_stmts R [t]) s tt s1)
      with (ends (fun R => mbind (F R) (fun _ => mret tt)) s tt s1).
    rewrite (ends_bind F (fun R _ => mret tt) _ _ _ SF (fun _ => steady_const _)).
    split.
    - intros ([] & s2 & E & E2). apply ends_const in E2. injection E2 as <-. exact E.
    - intros E. exists tt, s1. split; [exact E|]. apply ends_const. reflexivity. }
  split.
  - intros ([] & s1 & E1 & E2). exists s1. rewrite Q. auto.
  - intros (s1 & E1 & E2). exists tt, s1. rewrite <- Q. auto.
Qed.
Lemma ends_stmts_one t s r s1 s' :
  executes s t r s1 ->
  (match r with Some v => update_history v | None => mret tt end) s1 = Ok tt s' <->
  function_body s [t] s'.
Proof.
  intros E. set (U := match r with Some v => update_history v | None => mret tt end).
  unfold function_body.
  change (exists n, run_stmts (run n) [t] s = Ok tt s')
    with (ends (fun R => run_stmts R [t]) s tt s').
  set (G := fun (_ : interp) (r : option hval) => (match r with
                    | Some v => update_history v | None => mret tt end)).
  assert (SG : forall r, steady (fun R => G R r)) by (intros [v|]; unfold G; apply steady_const).
  change (ends (fun R => run_stmts R [t]) s tt s')
    with (ends (fun R => mbind (mbind (i_stmt R t) (G R)) (fun _ => mret tt)) s tt s').
  rewrite (ends_bind (fun R => mbind (i_stmt R t) (G R)) (fun R _ => mret tt) _ _ _
             (steady_bind _ _ (steady_stmt t) SG) (fun _ => steady_const _)).
  split.
  - intros H. exists tt, s'. split; [|apply ends_const; reflexivity].
    rewrite (ends_bind (fun R => i_stmt R t) G _ _ _ (steady_stmt t) SG).
    exists r, s1. split; [exact E|]. apply ends_const. exact H.
  - intros ([] & s2 & H & E2). apply ends_const in E2. injection E2 as <-.
    rewrite (ends_bind (fun R => i_stmt R t) G _ _ _ (steady_stmt t) SG) in H.
    destruct H as (r' & s3 & E3 & E4).
    destruct (ends_fun _ _ _ _ _ _ (steady_stmt t) E E3) as [-> ->].
    apply ends_const in E4. exact E4.
Qed.

Lemma held_var s x p : held s x (Some p) -> var s x p.
Proof. intros (v & B & D). exists (Some v). auto. Qed.
Lemma held_adv s s' x o : adv s s' -> held s x o -> held s' x o.
Proof.
  intros A. destruct o as [p|]; cbn [held].
  - intros (v & B & D). exists v. split; [exact (adv_binding _ _ _ _ A B)|exact (adv_den _ _ _ _ A D)].
  - apply adv_binding. exact A.
Qed.
Lemma held_rebound x v s s' p : rebound x v s s' -> den (st_heap s) v p -> held s' x (Some p).
Proof.
  intros Rb D. exists v. split; [eapply rebound_binding; exact Rb|].
  rewrite (rebound_heap _ _ _ _ Rb). exact D.
Qed.
Lemma held_other x v s s' y o : rebound x v s s' -> y <> x -> held s y o -> held s' y o.
Proof.
  intros Rb N. destruct o as [p|]; cbn [held].
  - intros (w & B & D). exists w. split; [eapply rebound_other; eassumption|].
    rewrite (rebound_heap _ _ _ _ Rb). exact D.
  - eapply rebound_other; eassumption.
Qed.

Lemma ordinary_hist s x : In x [hist1; hist2; hist3] -> ordinary s x.
Proof.
  intros I. assert (N : name_text x).
  { destruct I as [<-|[<-|[<-|[]]]].
    - apply (name_match 1). lia.
    - apply (name_match 2). lia.
    - apply (name_match 3). lia. }
  split; [exact N|]. destruct I as [<-|[<-|[<-|[]]]]; repeat split; discriminate.
Qed.
Lemma hist_text x : In x [hist1; hist2; hist3] -> name_text x.
Proof. intros I. apply (ordinary_hist (blank_state FmtNone false (lines []) None) x I). Qed.
Lemma held_scopes s o : held s hist1 o -> st_scopes s <> [].
Proof.
  assert (L : is_local hist1) by (right; exists O; reflexivity).
  destruct o as [p|]; cbn [held].
  - intros (v & B & _). inversion B; subst; [congruence|contradiction].
  - intros B. inversion B; subst; [congruence|contradiction].
Qed.

(** Only the history variables change, and nothing is read or printed. *)
Definition hmoved (s s' : state) : Prop :=
  moved [hist1; hist2; hist3] s s' /\ st_in s' = st_in s /\ st_out s' = st_out s.
Lemma hmoved_refl s : hmoved s s.
Proof. split; [apply moved_refl|auto]. Qed.
Lemma hmoved_trans s1 s2 s3 : hmoved s1 s2 -> hmoved s2 s3 -> hmoved s1 s3.
Proof.
  intros (M1 & I1 & O1) (M2 & I2 & O2).
  split; [eapply moved_trans; eassumption|]. split; congruence.
Qed.
Lemma hmoved_adv s s' : adv s s' -> hmoved s s'.
Proof.
  intros A. split; [apply adv_moved; exact A|]. destruct A as (t & d & ->). auto.
Qed.
Lemma hmoved_rebound x v s s' : In x [hist1; hist2; hist3] -> rebound x v s s' -> hmoved s s'.
Proof.
  intros I R. split; [eapply rebound_moved; eassumption|]. destruct R; auto.
Qed.

(** Moving a history variable into the next one. *)
Lemma shift_ok x y s p :
  In x [hist1; hist2; hist3] -> In y [hist1; hist2; hist3] -> st_scopes s <> [] ->
  held s x (Some p) ->
  exists s', (w <- get_lval (LName x [] None);; assign (LName y [] None) w) s = Ok tt s'
    /\ held s' y (Some p) /\ st_scopes s' <> [] /\
    (forall z o, z <> y -> held s z o -> held s' z o)
    /\ (forall v q, den (st_heap s) v q -> den (st_heap s') v q)
    /\ hmoved s s'.
Proof.
  intros Ix Iy NS H.
  destruct (get_name_ok s x p (ordinary_hist s x Ix) (held_var _ _ _ H))
    as (w & s1 & E1 & A1 & D1 & _).
  destruct (assign_fresh y w s1 (ordinary_hist _ _ Iy)) as (s2 & E2 & Rb).
  { rewrite (adv_scopes _ _ A1). exact NS. }
  exists s2. rewrite (bind_step _ _ _ _ _ E1). split; [exact E2|].
  split; [eapply held_rebound; eassumption|]. split.
  - destruct Rb as [sc rest L E|L]; cbn; [discriminate|].
    rewrite (adv_scopes _ _ A1). exact NS.
  - split.
    + intros z o N Hz. eapply held_other; [exact Rb|exact N|]. exact (held_adv _ _ _ _ A1 Hz).
    + split.
      * intros v q D. rewrite (rebound_heap _ _ _ _ Rb). exact (adv_den _ _ _ _ A1 D).
      * exact (hmoved_trans _ _ _ (hmoved_adv _ _ A1) (hmoved_rebound _ _ _ _ Iy Rb)).
Qed.

Lemma get_held s x o :
  In x [hist1; hist2; hist3] -> held s x o ->
  exists b, get_var x s = Ok b s /\ match o with Some _ => exists v, b = Some v | None => b = None end.
Proof.
  intros I H. destruct o as [p|]; cbn [held] in H.
  - destruct H as (v & B & _). exists (Some v).
    split; [apply get_var_binding; [apply hist_text; exact I|exact B]|eauto].
  - exists None. split; [apply get_var_binding; [apply hist_text; exact I|exact H]|reflexivity].
Qed.

Lemma update_keeps s v p l :
  history s l -> den (st_heap s) v p ->
  exists s', update_history v s = Ok tt s' /\ history s' (p :: l) /\ hmoved s s'.
Proof.
  intros (H1 & H2 & H3) D.
  change (held s hist1 (nth_error l 0)) in H1. change (held s hist2 (nth_error l 1)) in H2.
  change (held s hist3 (nth_error l 2)) in H3.
  pose proof (held_scopes _ _ H1) as NS.
  assert (I1 : In hist1 [hist1; hist2; hist3]) by (left; reflexivity).
  assert (I2 : In hist2 [hist1; hist2; hist3]) by (right; left; reflexivity).
  assert (I3 : In hist3 [hist1; hist2; hist3]) by (right; right; left; reflexivity).
  assert (Last : forall s0 o2 o3, st_scopes s0 <> [] -> den (st_heap s0) v p ->
    held s0 hist2 o2 -> held s0 hist3 o3 ->
    exists s', assign (LName hist1 [] None) v s0 = Ok tt s' /\
      (held s' hist1 (Some p) /\ held s' hist2 o2 /\ held s' hist3 o3) /\ hmoved s0 s').
  { intros s0 o2 o3 N0 D0 G2 G3.
    destruct (assign_fresh hist1 v s0 (ordinary_hist _ _ I1) N0) as (s' & E & Rb).
    exists s'. split; [exact E|]. split; [|exact (hmoved_rebound _ _ _ _ I1 Rb)].
    split; [eapply held_rebound; eassumption|].
    split; (eapply held_other; [exact Rb|discriminate|assumption]). }
  unfold update_history.
  destruct (get_held _ _ _ I1 H1) as (b1 & E1 & B1).
  destruct l as [|p1 l].
  - (* nothing yet *)
    cbn [nth_error] in *. subst b1.
    destruct (Last s None None NS D H2 H3) as (s' & E & K). exists s'.
    rewrite (bind_step _ _ _ _ _ E1). unfold mbind, mret. split; [exact E|exact K].
  - cbn [nth_error] in H1, H2, H3, B1. destruct B1 as [w1 ->].
    destruct (get_held _ _ _ I2 H2) as (b2 & E2 & B2).
    assert (Mid : exists s1,
      (match b2 with
       | Some _ => w <- get_lval (LName hist2 [] None);; assign (LName hist3 [] None) w
       | None => mret tt
       end) s = Ok tt s1 /\ st_scopes s1 <> [] /\ den (st_heap s1) v p /\
      held s1 hist1 (Some p1) /\ held s1 hist3 (nth_error l 0) /\ hmoved s s1).
    { destruct l as [|p2 l]; cbn [nth_error] in *.
      - subst b2. exists s. split; [reflexivity|]. split; [assumption|]. split; [assumption|].
        split; [assumption|]. split; [assumption|apply hmoved_refl].
      - destruct B2 as [w2 ->].
        destruct (shift_ok hist2 hist3 s p2 I2 I3 NS H2) as (s1 & E3 & K3 & N3 & O3 & D3 & V3).
        exists s1. split; [exact E3|]. split; [exact N3|]. split; [apply D3; exact D|].
        split; [apply O3; [discriminate|exact H1]|]. split; [exact K3|exact V3]. }
    destruct Mid as (s1 & E3 & N1 & D1 & K1 & K3 & V1).
    destruct (shift_ok hist1 hist2 s1 p1 I1 I2 N1 K1) as (s2 & E4 & K4 & N4 & O4 & D4 & V4).
    destruct (Last s2 (Some p1) (nth_error l 0) N4 (D4 _ _ D1) K4) as (s3 & E5 & J & V5).
    { apply O4; [discriminate|exact K3]. }
    exists s3. split.
    + rewrite (bind_step _ _ _ _ _ E1).
      assert (E6 : (o2 <- get_var hist2;;
         (match o2 with
          | Some _ => w <- get_lval (LName hist2 [] None);; assign (LName hist3 [] None) w
          | None => mret tt
          end);;
         w <- get_lval (LName hist1 [] None);; assign (LName hist2 [] None) w) s = Ok tt s2).
      { rewrite (bind_step _ _ _ _ _ E2), (bind_step _ _ _ _ _ E3). exact E4. }
      rewrite (bind_step _ _ _ _ _ E6). exact E5.
    + split; [exact J|]. exact (hmoved_trans _ _ _ (hmoved_trans _ _ _ V1 V4) V5).
Qed.
Lemma update_ok s v p l :
  history s l -> den (st_heap s) v p ->
  exists s', update_history v s = Ok tt s' /\ history s' (p :: l).
Proof.
  intros H D. destruct (update_keeps s v p l H D) as (s' & E & K & _). eauto.
Qed.

Theorem history_step s t v p s1 l :
  executes s t (Some v) s1 -> den (st_heap s1) v p -> history s1 l ->
  exists s2, function_body s [t] s2 /\ history s2 (p :: l).
Proof.
  intros E D H. destruct (update_ok s1 v p l H D) as (s2 & U & K). exists s2.
  split; [|exact K]. apply (ends_stmts_one t s (Some v) s1 s2 E). exact U.
Qed.

Theorem history_run sts s ps s' l :
  tells sts s ps s' -> history s l -> function_body s sts s' /\ history s' (rev ps ++ l).
Proof.
  intros T. revert l. induction T as [s|t v p ts ps s s1 s2 s3 E D K B _ IH|t ts ps s s1 s3 E K _ IH];
    intros l H.
  - split; [exists O; reflexivity|exact H].
  - destruct (update_ok s1 v p l (K _ H) D) as (s2' & U & H2).
    pose proof (proj1 (ends_stmts_one t s (Some v) s1 s2' E) U) as B'.
    destruct (ends_fun _ _ _ _ _ _ (steady_stmts [t]) B B') as [_ ->].
    destruct (IH _ H2) as [F G]. split.
    + apply ends_stmts_cons. exists s2. split; [exact B|exact F].
    + cbn [rev]. rewrite <- app_assoc. exact G.
  - destruct (IH _ (K _ H)) as [F G]. split; [|exact G].
    apply ends_stmts_cons. exists s1. split; [|exact F].
    apply (ends_stmts_one t s None s1 s1 E). reflexivity.
Qed.

(** A new call starts without a history. *)
Lemma new_scope_vars f args s sc s1 k :
  new_scope f args s = Ok sc s1 -> lookup (sc_vars sc) (36%N :: repeat 95%N (S k)) = None.
Proof.
  unfold new_scope. intros E. bind_inv E. bind_inv E. injection E as <- _. cbn [sc_vars].
  change (s_ "f") with [102%N]. change (s_ "g") with [103%N]. cbn [List.app lookup].
  assert (N : forall c, str_eqb (36%N :: repeat 95%N (S k)) [c] = false).
  { intros c. cbn. rewrite andb_false_r. reflexivity. }
  rewrite !N.
  assert (H : forall names (vs : list hval),
     Forall (fun x : str => str_eqb (36%N :: repeat 95%N (S k)) x = false) names ->
     lookup (combine names vs) (36%N :: repeat 95%N (S k)) = None).
  { intros names vs F. revert vs. induction F as [|x l Hx _ IH]; intros [|v vs]; try reflexivity.
    cbn [combine lookup]. rewrite Hx. apply IH. }
  apply (H (map (fun c => [c]) (s_ "abcde")) args). rewrite Forall_map.
  apply Forall_forall. intros c _. apply N.
Qed.

Lemma scope_letters s (vs : list hval) ps more sc rest i c :
  st_scopes s = sc :: rest ->
  sc_vars sc = [(s_ "f", fst more); (s_ "g", snd more)]
               ++ combine (map (fun c => [c]) (s_ "abcde")) vs ->
  dens (st_heap s) vs ps ->
  nth_error (s_ "abcde") i = Some c -> held s [c] (nth_error ps i).
Proof.
  intros Sc Vs D N.
  assert (L : is_local [c]).
  { left. exists c. split; [|reflexivity]. apply nth_error_In in N.
    change (s_ "abcdefg") with (s_ "abcde" ++ s_ "fg"). apply in_or_app. left. exact N. }
  assert (B : binding s [c] (lookup (sc_vars sc) [c])) by (eapply binding_local; eassumption).
  rewrite Vs in B.
  assert (K : lookup ([(s_ "f", fst more); (s_ "g", snd more)]
                 ++ combine (map (fun c => [c]) (s_ "abcde")) vs) [c] = nth_error vs i).
  { clear - N. change (s_ "abcde") with [97; 98; 99; 100; 101]%N in *.
    destruct i as [|[|[|[|[|i]]]]];
      [..|destruct i; discriminate N]; injection N as <-;
      destruct vs as [|v1 [|v2 [|v3 [|v4 [|v5 vs]]]]]; reflexivity. }
  rewrite K in B. clear - B D. revert i B. induction D as [|v vs p ps Dv D IH]; intros i B.
  - destruct i; exact B.
  - destruct i as [|i]; [exists v; auto|]. exact (IH i B).
Qed.

Theorem call_runs sts ret args ps s :
  dens (st_heap s) args ps ->
  exists s1, entered s (HBlock sts ret) ps s1 /\
    (exists sc rest, st_scopes s1 = sc :: rest /\ sc_fun sc = Some (HBlock sts ret)) /\
    forall v s', (exists n, i_call (run n) (HBlock sts ret) args s = Ok v s') <->
      exists s2 s3, function_body s1 sts s2 /\ gives s2 ret v s3 /\ left s3 s'.
Proof.
  intros D.
  assert (Y : yields (new_scope (HBlock sts ret) args) s
    (fun sc s' => sc_fun sc = Some (HBlock sts ret) /\ exists g, den (st_heap s') g (PList ps) /\
       sc_vars sc = [(s_ "f", HBlock sts ret); (s_ "g", g)]
                    ++ combine (map (fun c => [c]) (s_ "abcde")) args)).
  { unfold new_scope. eapply yields_bind; [apply yields_copies; exact D|].
    intros vs s1 A1 D1. eapply yields_bind; [apply yields_new_list; exact D1|].
    intros g s2 A2 D2. apply yields_ret. split; [reflexivity|]. exists g. auto. }
  destruct Y as (sc & s0 & E0 & A0 & Sf & g & Dg & Vs).
  set (s1 := set_scopes (sc :: st_scopes s0) (st_depth s0 + 1) s0).
  assert (Sc : st_scopes s1 = sc :: st_scopes s0) by reflexivity.
  exists s1. split; [|split; [eauto|]].
  - split; [|split; [|split; [|split]]].
    + exists sc. destruct A0 as (t & d & ->). subst s1. unfold only_adds. cbn.
      repeat (split; [reflexivity|]). split; eauto.
    + assert (B : binding s1 (s_ "f") (lookup (sc_vars sc) (s_ "f"))).
      { eapply binding_local; [|exact Sc]. left. exists 102%N. split; [cbn; tauto|reflexivity]. }
      rewrite Vs in B. exact B.
    + assert (B : binding s1 (s_ "g") (lookup (sc_vars sc) (s_ "g"))).
      { eapply binding_local; [|exact Sc]. left. exists 103%N. split; [cbn; tauto|reflexivity]. }
      rewrite Vs in B. exists g. split; [exact B|exact Dg].
    + intros i c N. eapply (scope_letters s1 args ps (HBlock sts ret, g)); [exact Sc|exact Vs| |exact N].
      exact (adv_dens _ _ _ _ A0 D).
    + assert (H : forall k, held s1 (36%N :: repeat 95%N (S k)) None).
      { intros k. cbn [held]. rewrite <- (new_scope_vars _ _ _ _ _ k E0).
        eapply binding_local; [right; exists k; reflexivity|exact Sc]. }
      split; [exact (H 0%nat)|]. split; [exact (H 1%nat)|exact (H 2%nat)].
  - intros v s'. split.
    + intros [n E]. destruct n as [|n]; [discriminate|].
      change (call (run n) (HBlock sts ret) args s = Ok v s') in E. unfold call, in_scope in E.
      rewrite (bind_step _ _ _ _ _ E0) in E.
      assert (P : push_scope sc s0 = Ok tt s1) by reflexivity.
      rewrite (bind_step _ _ _ _ _ P) in E.
      apply bind_ok in E. destruct E as (w & s3 & E3 & E).
      apply bind_ok in E3. destruct E3 as ([] & s2 & E2 & E3).
      apply bind_ok in E. destruct E as ([] & s4 & E4 & E). injection E as -> <-.
      exists s2, s3. split; [exists n; exact E2|]. split; [exists n; exact E3|].
      unfold pop_scope in E4. destruct (st_scopes s3) as [|sc' rest] eqn:Es; [discriminate|].
      injection E4 as <-. exists sc', rest. auto.
    + intros (s2 & s3 & [n E2] & [k E3] & sc' & rest & Es & ->).
      exists (S (max n k)). change (call (run (max n k)) (HBlock sts ret) args s
        = Ok v (set_scopes rest (st_depth s3 - 1) s3)). unfold call, in_scope.
      rewrite (bind_step _ _ _ _ _ E0).
      assert (P : push_scope sc s0 = Ok tt s1) by reflexivity.
      rewrite (bind_step _ _ _ _ _ P).
      assert (B : (run_stmts (run (max n k)) sts;; rval_tree (run (max n k)) ret) s1 = Ok v s3).
      { rewrite (bind_step _ _ _ tt s2).
        - apply (more_rval k); [lia|exact E3|discriminate].
        - exact (more_ends _ n (max n k) _ _ _ (steady_stmts _) ltac:(lia) E2). }
      rewrite (bind_step _ _ _ _ _ B).
      assert (Q : pop_scope s3 = Ok tt (set_scopes rest (st_depth s3 - 1) s3)).
      { unfold pop_scope. rewrite Es. reflexivity. }
      rewrite (bind_step _ _ _ _ _ Q). reflexivity.
Qed.
Theorem call_does sts ret args ps s :
  dens (st_heap s) args ps ->
  exists s1, entered s (HBlock sts ret) ps s1 /\
    forall v s', (exists n, i_call (run n) (HBlock sts ret) args s = Ok v s') <->
      exists s2 s3, function_body s1 sts s2 /\ gives s2 ret v s3 /\ left s3 s'.
Proof. intros D. destruct (call_runs sts ret args ps s D) as (s1 & H & _ & I). eauto. Qed.

Lemma executes_while (sense : bool) text c body s s' :
  (exists cmd, command_of (s_ text) = Some cmd /\
     c_fun cmd = if sense then C_WHILE else C_TILL) ->
  executes s (command_stmt text [c; TBlk body]) None s' <->
  ends (fun R => i_while R sense c body) s tt s'.
Proof.
  intros (cmd & E & F). rewrite (run_command text _ cmd E), executes_cmd.
  assert (Q : forall R, exec_cmd R cmd [c; TBlk body] = i_while R sense c body).
  { intros R. unfold exec_cmd. rewrite F. destruct sense; reflexivity. }
  split.
  - intros [_ [n H]]. exists n. rewrite <- Q. exact H.
  - intros [n H]. split; [reflexivity|]. exists n. rewrite Q. exact H.
Qed.
Lemma cmd_W : exists cmd, command_of (s_ "W") = Some cmd /\ c_fun cmd = C_WHILE.
Proof. eexists. split; reflexivity. Qed.
Lemma cmd_T : exists cmd, command_of (s_ "T") = Some cmd /\ c_fun cmd = C_TILL.
Proof. eexists. split; reflexivity. Qed.

Theorem while_iff s c body s' :
  executes s (command_stmt "W" [c; TBlk body]) None s' <-> while_does true c body s s'.
Proof.
  rewrite (executes_while true "W" c body s s' cmd_W). split; [|apply while_complete].
  intros [n H]. exact (while_ok true c body n s s' H).
Qed.
Theorem till_iff s c body s' :
  executes s (command_stmt "T" [c; TBlk body]) None s' <-> while_does false c body s s'.
Proof.
  rewrite (executes_while false "T" c body s s' cmd_T). split; [|apply while_complete].
  intros [n H]. exact (while_ok false c body n s s' H).
Qed.
