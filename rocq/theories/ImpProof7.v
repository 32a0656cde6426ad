(** * Programs that never end: proofs *)

From Coq Require Import String List NArith ZArith Bool Arith Lia.
From Verif Require Import PyStr PyRe PyNum Tokens Scan OpFun OpTable Parse Unparse
                          PTypes Ops OpsSeq Apply Spec StrFacts PFacts RunOp
                          Heap Exec SpecHeap HeapProof ExecRel ExecInv EvalProof
                          SpecScan SpecRun SpecVars VarProof CtlProof PureProof LoopProof SpecMain SpecMap MapProof
                          SpecAlias FilterProof SpecMeta MetaProof SpecLam LamProof SpecRec RecProof
                          StandProof SpecFun FunProof FunProof2 SpecImp SpecImp2 ImpProof ImpProof2 ImpProof3 ImpProof6.
Import ListNotations.
Local Open Scope string_scope.
Local Open Scope list_scope.

Scheme hangs_ind0 := Minimality for hangs Sort Prop
with hangs_ind1 := Minimality for hangs_all Sort Prop
with hangs_ind2 := Minimality for hangs_until Sort Prop.
Combined Scheme hangs_mind from hangs_ind0, hangs_ind1, hangs_ind2.

(** ** Computations that no fuel is enough for *)
Definition stuck {A} (G : interp -> M A) (s : state) : Prop := forall n, G (run n) s = Fuel.
Lemma bind_fuel {A B} (m : M A) (k : A -> M B) s : m s = Fuel -> mbind m k s = Fuel.
Proof. intros E. unfold mbind. rewrite E. reflexivity. Qed.
Lemma early {A} (G : interp -> M A) s a s' n :
  steady G -> ends G s a s' -> G (run n) s = Fuel \/ G (run n) s = Ok a s'.
Proof.
  intros S [k E]. destruct (Nat.le_ge_cases n k) as [L|L].
  - destruct (S _ _ (run_le_fuel_le n k L) s) as [H|H]; [left; exact H|right; congruence].
  - right. exact (more_ends G k n _ _ _ S L E).
Qed.
Lemma stuck_next {A B} (G : interp -> M A) (H : interp -> A -> M B) s a s' :
  steady G -> ends G s a s' -> stuck (fun R => H R a) s' -> stuck (fun R => mbind (G R) (H R)) s.
Proof.
  intros S E K n. destruct (early G s a s' n S E) as [X|X]; [apply bind_fuel; exact X|].
  rewrite (bind_step _ _ _ _ _ X). apply K.
Qed.
Lemma stuck_first {A B} (G : interp -> M A) (H : interp -> A -> M B) s :
  stuck G s -> stuck (fun R => mbind (G R) (H R)) s.
Proof. intros K n. apply bind_fuel. apply K. Qed.
Lemma stuck_eq {A} (G H : interp -> M A) s : (forall R, G R s = H R s) -> stuck H s -> stuck G s.
Proof. intros E K n. rewrite E. apply K. Qed.
Lemma stuck_stmt c args s : stuck (fun R => exec_cmd R c args) s -> stuck (fun R => i_stmt R (TCmd c args)) s.
Proof. intros K [|n]; [reflexivity|]. apply bind_fuel. apply K. Qed.

(** ** Loops *)
Lemma round_stuck sense c b s v s1 n :
  gives s c v s1 -> object_counts (st_heap s1) v sense ->
  (run_body (run n) b;; i_while (run n) sense c b) s1 = Fuel -> i_while (run (S n)) sense c b s = Fuel.
Proof.
  intros G C K. change (while_loop (run n) sense c b s = Fuel). unfold while_loop.
  destruct (early (fun R => rval_tree R c) s v s1 n (steady_rval c) G) as [X|X]; [apply bind_fuel; exact X|].
  rewrite (bind_step _ _ _ _ _ X), (bind_step _ _ _ _ _ (proj2 (truth_iff _ _ _ _) (conj eq_refl C))), eqb_reflx.
  exact K.
Qed.
Lemma spins_stuck F sense c body : forall n w L s c' b,
  spins F sense c body w L -> here w F L s -> dent (st_heap s) c' c -> dents (st_heap s) b body ->
  i_while (run n) sense c' b s = Fuel.
Proof.
  destruct statements_run as (Ev & _ & Al & _).
  induction n as [|n IH]; intros w L s c' b Sp He Dc Db; [reflexivity|].
  destruct Sp as [w L out w1 L1 p out' w2 L2 E C R Sp].
  destruct (Ev _ _ _ _ _ _ _ _ E) as [_ X]. destruct (X s c' He Dc) as (v & s1 & G & Dv & Go & He1).
  destruct (Al _ _ _ _ _ _ _ R s1 b He1 (goes_dents _ _ _ _ _ Go Db)) as ((s2 & Do & Go2 & He2) & _).
  apply (round_stuck sense c' b s v s1 n G); [eapply object_counts_value; eassumption|].
  apply ends_body in Do. destruct (early _ s1 tt s2 n (steady_body b) Do) as [Y|Y]; [apply bind_fuel; exact Y|].
  rewrite (bind_step _ _ _ _ _ Y). pose proof (goes_trans _ _ _ _ _ Go Go2) as Go3.
  eapply IH; [exact Sp|exact He2|eapply goes_dent; eassumption|eapply goes_dents; eassumption].
Qed.

Theorem statements_hang :
  (forall F w L t, hangs F w L t -> forall s t', here w F L s -> dent (st_heap s) t' t ->
     stuck (fun R => i_stmt R t') s) /\
  (forall F w L ts, hangs_all F w L ts -> forall s ts', here w F L s -> dents (st_heap s) ts' ts ->
     stuck (fun R => run_body R ts') s /\ stuck (fun R => run_stmts R ts') s) /\
  (forall F w L sense c body, hangs_until F w L sense c body -> forall s c' b, here w F L s ->
     dent (st_heap s) c' c -> dents (st_heap s) b body -> stuck (fun R => i_while R sense c' b) s).
Proof.
  destruct statements_run as (Ev & Ru & Al & _). apply hangs_mind.
  - intros F w L sense c body _ IH s t' He D.
    assert (X : exists es, t' = command_stmt (if sense then "W" else "T") es
                /\ dents (st_heap s) es [c; TBlk body]).
    { destruct sense; [exact (dent_pcmd _ _ "W" _ _ eq_refl D)|exact (dent_pcmd _ _ "T" _ _ eq_refl D)]. }
    destruct X as (es & -> & Ds). apply dents2 in Ds. destruct Ds as (ec & eb & -> & Dc & Db).
    apply dent_blk in Db. destruct Db as (b & -> & Db).
    pose proof (IH s ec b He Dc Db) as K. destruct sense.
    + change (stuck (fun R => i_stmt R (command_stmt "W" [ec; TBlk b])) s).
      destruct cmd_W as (cmd & Ec & Ef). rewrite (run_command "W" _ cmd Ec). apply stuck_stmt.
      eapply stuck_eq; [|exact K]. intros R. unfold exec_cmd. rewrite Ef. reflexivity.
    + change (stuck (fun R => i_stmt R (command_stmt "T" [ec; TBlk b])) s).
      destruct cmd_T as (cmd & Ec & Ef). rewrite (run_command "T" _ cmd Ec). apply stuck_stmt.
      eapply stuck_eq; [|exact K]. intros R. unfold exec_cmd. rewrite Ef. reflexivity.
  - intros F w L t c yes no out w1 L1 p E C _ IH s t' He D.
    destruct (dent_pcmd _ _ "I" _ _ eq_refl D) as (es & -> & Ds).
    apply dents3 in Ds. destruct Ds as (ec & ey & en & -> & Dc & Dy & Dn).
    apply dent_blk in Dy. destruct Dy as (ys & -> & Dy). apply dent_blk in Dn. destruct Dn as (ns & -> & Dn).
    destruct (Ev _ _ _ _ _ _ _ _ E) as [_ X]. destruct (X s ec He Dc) as (v & s1 & G & Dv & Go & He1).
    destruct (IH s1 (if t then ys else ns) He1) as [K _]; [destruct t; eapply goes_dents; eassumption|].
    rewrite (run_command "I" _ cmd_if eq_refl). apply stuck_stmt.
    apply (stuck_next (fun R => rval_tree R ec)
             (fun R v => b <- truth v;; run_body R (body (if b then TBlk ys else TBlk ns))) s v s1 (steady_rval ec) G).
    intros n. rewrite (bind_step _ _ _ _ _ (proj2 (truth_iff _ _ _ _)
      (conj eq_refl (object_counts_value _ _ _ _ Dv C)))).
    destruct t; apply K.
  - intros F w L t ts _ IH s ts' He D. inversion D as [|t' ? ts0 ? Dt Dts]; subst.
    pose proof (IH s t' He Dt) as K. split.
    + apply (stuck_first (fun R => i_stmt R t')). exact K.
    + intros n. unfold run_stmts. cbn [mfor]. apply bind_fuel. apply bind_fuel. apply K.
  - intros F w L t ts out w1 L1 R _ IH s ts' He D. inversion D as [|t' ? ts0 ? Dt Dts]; subst.
    destruct (Ru _ _ _ _ _ _ _ R s t' He Dt) as (r & s1 & Ex & Dr & Go & He1).
    pose proof (goes_dents _ _ _ _ _ Go Dts) as Dts1. split.
    + destruct (IH s1 ts0 He1 Dts1) as [K _].
      apply (stuck_next (fun R => i_stmt R t') (fun R _ => run_body R ts0) s r s1 (steady_stmt t') Ex). exact K.
    + assert (Q : exists s2, (match r with Some v => update_history v | None => mret tt end) s1 = Ok tt s2
                   /\ goes [] s1 s2 /\ here w1 F L1 s2).
      { destruct r as [v|]; [|exists s1; split; [reflexivity|split; [apply goes_refl|exact He1]]].
        destruct (Dr v eq_refl) as [p Dp]. exact (here_update _ _ _ _ _ _ He1 Dp). }
      destruct Q as (s2 & E2 & Go2 & He2).
      destruct (IH s2 ts0 He2 (goes_dents _ _ _ _ _ Go2 Dts1)) as [_ K].
      intros n. unfold run_stmts. cbn [mfor].
      destruct (early (fun R => i_stmt R t') s r s1 n (steady_stmt t') Ex) as [X|X].
      * apply bind_fuel. apply bind_fuel. exact X.
      * rewrite (bind_step _ _ s tt s2); [apply K|]. rewrite (bind_step _ _ _ _ _ X). exact E2.
  - intros F w L sense c body Sp s c' b He Dc Db n. eapply spins_stuck; eassumption.
  - intros F w L sense c body out w1 L1 p E C _ IH s c' b He Dc Db [|n]; [reflexivity|].
    destruct (Ev _ _ _ _ _ _ _ _ E) as [_ X]. destruct (X s c' He Dc) as (v & s1 & G & Dv & Go & He1).
    destruct (IH s1 b He1 (goes_dents _ _ _ _ _ Go Db)) as [K _].
    apply (round_stuck sense c' b s v s1 n G); [eapply object_counts_value; eassumption|].
    apply bind_fuel. apply K.
  - intros F w L sense c body out w1 L1 p out' w2 L2 E C R _ IH s c' b He Dc Db [|n]; [reflexivity|].
    destruct (Ev _ _ _ _ _ _ _ _ E) as [_ X]. destruct (X s c' He Dc) as (v & s1 & G & Dv & Go & He1).
    destruct (Al _ _ _ _ _ _ _ R s1 b He1 (goes_dents _ _ _ _ _ Go Db)) as ((s2 & Do & Go2 & He2) & _).
    apply (round_stuck sense c' b s v s1 n G); [eapply object_counts_value; eassumption|].
    apply ends_body in Do. destruct (early _ s1 tt s2 n (steady_body b) Do) as [Y|Y]; [apply bind_fuel; exact Y|].
    rewrite (bind_step _ _ _ _ _ Y). pose proof (goes_trans _ _ _ _ _ Go Go2) as Go3.
    apply IH; [exact He2|eapply goes_dent; eassumption|eapply goes_dents; eassumption].
Qed.

(** ** Calls *)
Lemma call_enters sts ret args ps s :
  dens (st_heap s) args ps ->
  exists s1, entered s (HBlock sts ret) ps s1 /\
    (exists sc rest, st_scopes s1 = sc :: rest /\ sc_fun sc = Some (HBlock sts ret)) /\
    (stuck (fun R => run_stmts R sts) s1 -> stuck (fun R => i_call R (HBlock sts ret) args) s).
Proof.
  intros D.
  assert (Y : yields (new_scope (HBlock sts ret) args) s
    (fun sc s' => sc_fun sc = Some (HBlock sts ret) /\ exists g, den (st_heap s') g (PList ps) /\
       sc_vars sc = [(s_ "f", HBlock sts ret); (s_ "g", g)]
                    ++ combine (map (fun c => [c]) (s_ "abcde")) args)).
  { unfold new_scope. eapply yields_bind; [apply yields_copies; exact D|].
    intros vs s1 A1 D1. eapply yields_bind; [apply yields_new_list; exact D1|].
    intros g s2 A2 D2. apply yields_ret. split; [reflexivity|]. exists g. auto. }
  destruct Y as (sc & s0 & E0 & A0 & Sf & g & Dg & Vs).
  set (s1 := set_scopes (sc :: st_scopes s0) (st_depth s0 + 1) s0).
  assert (Sc : st_scopes s1 = sc :: st_scopes s0) by reflexivity.
  exists s1. split; [|split; [eauto|]].
  - split; [|split; [|split; [|split]]].
    + exists sc. destruct A0 as (t & d & ->). subst s1. unfold only_adds. cbn.
      repeat (split; [reflexivity|]). split; eauto.
    + assert (B : binding s1 (s_ "f") (lookup (sc_vars sc) (s_ "f"))).
      { eapply binding_local; [|exact Sc]. left. exists 102%N. split; [cbn; tauto|reflexivity]. }
      rewrite Vs in B. exact B.
    + assert (B : binding s1 (s_ "g") (lookup (sc_vars sc) (s_ "g"))).
      { eapply binding_local; [|exact Sc]. left. exists 103%N. split; [cbn; tauto|reflexivity]. }
      rewrite Vs in B. exists g. split; [exact B|exact Dg].
    + intros i c N. eapply (scope_letters s1 args ps (HBlock sts ret, g)); [exact Sc|exact Vs| |exact N].
      exact (adv_dens _ _ _ _ A0 D).
    + assert (H : forall k, held s1 (36%N :: repeat 95%N (S k)) None).
      { intros k. cbn [held]. rewrite <- (new_scope_vars _ _ _ _ _ k E0).
        eapply binding_local; [right; exists k; reflexivity|exact Sc]. }
      split; [exact (H 0%nat)|]. split; [exact (H 1%nat)|exact (H 2%nat)].
  - intros K [|n]; [reflexivity|].
    change (call (run n) (HBlock sts ret) args s = Fuel). unfold call, in_scope.
    rewrite (bind_step _ _ _ _ _ E0).
    assert (P : push_scope sc s0 = Ok tt s1) by reflexivity.
    rewrite (bind_step _ _ _ _ _ P). apply bind_fuel. apply bind_fuel. apply K.
Qed.
Theorem call_hangs w sts r args s f vs :
  models s w -> den (st_heap s) f (PBlock sts r) -> dens (st_heap s) vs args ->
  hangs_all (PBlock sts r) w (bound (PBlock sts r) args) sts -> stuck (fun R => i_call R f vs) s.
Proof.
  intros M Df Dvs H.
  inversion Df as [| | | |sts1 e sts' r' Dn De|]; subst.
  destruct (call_enters sts1 e vs args s Dvs) as (s2 & En & Rn & Gc).
  destruct En as ((sc & A1) & Bf & Hg & Ha & Hi).
  assert (Si2 : since s s2).
  { destruct A1 as (V & _ & _ & _ & _ & _ & _ & _ & FM & T & _ & Hh & _). cbn in V, T, FM, Hh.
    repeat split; assumption. }
  pose proof (since_den _ _ _ _ Si2 Df) as Df2.
  assert (Fr : frame w (PBlock sts r) (bound (PBlock sts r) args) s2).
  { split; [eapply models_since; eassumption| |exists (HBlock sts1 e); auto].
    intros c I. repeat (destruct I as [<-|I]); [..|destruct I].
    1-5: apply held_nth.
    - exact (Ha 0%nat _ eq_refl).
    - exact (Ha 1%nat _ eq_refl).
    - exact (Ha 2%nat _ eq_refl).
    - exact (Ha 3%nat _ eq_refl).
    - exact (Ha 4%nat _ eq_refl).
    - apply held_var. exists (HBlock sts1 e). split; [exact Bf|exact Df2].
    - apply held_var. exact Hg. }
  inversion Df2 as [| | | |? ? ? ? Dn2 De2|]; subst.
  apply Gc. destruct statements_hang as (_ & Ha' & _).
  apply (Ha' _ _ _ _ H s2 sts1 (conj Fr (ex_intro _ [] Hi)) Dn2).
Qed.
Theorem call_never s f sts r vs args :
  den (st_heap s) f (PBlock sts r) -> dens (st_heap s) vs args ->
  hangs_all (PBlock sts r) (setting_of s) (bound (PBlock sts r) args) sts ->
  forall n, i_call (run n) f vs s = Fuel.
Proof. intros Df Dv H. exact (call_hangs _ _ _ _ _ _ _ (models_setting s) Df Dv H). Qed.
Theorem program_never text fmt wn input args sts0 r :
  program_of text (PBlock sts0 r) ->
  hangs_all (PBlock sts0 r) (start_setting fmt) (bound (PBlock sts0 r) (map PScal args)) sts0 ->
  never_ends fmt wn input text args.
Proof.
  intros (ts & b & sts & rest & Sn & Pr & Ne & Dm) H m.
  unfold run_text. rewrite Sn, Pr. set (s0 := blank_state fmt wn input None).
  rewrite wipe_eq. fold all_globals.
  destruct (wiped all_globals s0 [] ltac:(constructor)) as (e1 & s1 & E1 & A1 & _).
  set (s1' := set_vars e1 s1) in *.
  destruct (yields_fresh_all (map PScal args) s1') as (vs & s2 & E2 & A2 & D2).
  set (s3 := set_program vs (Some (mk_block sts)) s2).
  destruct (wiped all_globals s3 (map PScal args) D2) as (e4 & s4 & E4 & A4 & H4).
  set (s4' := set_vars e4 s4) in *.
  assert (R : st_fmt s4' = fmt /\ st_tao s4' = None /\ st_in s4' = w_in input /\ st_out s4' = []
              /\ exists t, st_heap s4' = st_heap s0 ++ t).
  { destruct A4 as (t4 & d4 & E4'), A2 as (t2 & d2 & E2'), A1 as (t1 & d1 & E1').
    unfold s4'. rewrite E4'. unfold s3. rewrite E2'. unfold s1'. rewrite E1'. cbn.
    repeat split; auto. eexists. rewrite <- !app_assoc. cbn. reflexivity. }
  destruct R as (Rf & Rt & Ri & Ro & t & Rh).
  assert (M : models s4' (start_setting fmt)).
  { split; [exact Rf|]. split.
    - cbn [start_setting w_var]. intros x q Eq. destruct (start_known x q Eq) as [(Nm & Nq & Nr & Np & Nl) T].
      split; [|split; [exact Nl|]].
      + split; [exact Nm|]. split; [exact Nq|]. split; [exact Nr|]. intros; contradiction.
      + destruct (H4 x q T) as (v & Lv & Dv). exists (Some v). split; [|exact Dv].
        change (Some v = lookup (st_vars s4') x) in Lv || idtac.
        rewrite <- Lv. exact (binding_global s4' x Nl).
    - intros _. unfold has_one. rewrite Rh. reflexivity. }
  assert (Df : den (st_heap s4') (mk_block sts) (PBlock sts0 r)) by (exact (den_app [] (st_heap s4') _ _ Dm)).
  assert (Dv : dens (st_heap s4') vs (map PScal args)).
  { exact (adv_dens _ _ _ _ A4 D2). }
  pose proof (call_hangs _ _ _ _ s4' (mk_block sts) vs M Df Dv H m) as C.
  rewrite (bind_step _ _ _ _ _ E1), (bind_step _ _ _ _ _ E2).
  unfold exec_program. rewrite wipe_eq. fold all_globals. destruct sts as [|t0 sts]; [congruence|].
  cbv zeta. rewrite (bind_step _ _ _ tt s3) by reflexivity.
  rewrite (bind_step _ _ _ _ _ E4). apply bind_fuel. exact C.
Qed.
Theorem never_prints fmt wn input text args out :
  never_ends fmt wn input text args -> ~ prints fmt wn input text args out.
Proof. intros N (n & s' & E & _). specialize (E n (le_n n)). rewrite N in E. discriminate. Qed.

(** ** Counting up *)
Definition up_body : list (tree pval) := [papp "U" [pname (s_ "a")]].
Definition up_program : pval :=
  PBlock [pcmd "W" [pname (s_ "a"); TBlk up_body]] (TVal PNil).
Lemma up_text : program_of "Wa{Ua}" up_program.
Proof. program. Qed.
Lemma up_round F w L z : w_one w -> L 97%N = scal_Z z ->
  runs_all F w L up_body [] w (put 97%N (scal_Z (z + 1)) L).
Proof.
  intros One La. apply run_last. eapply runs_expression.
  apply (evaluates_step F w L "U" "+" (s_ "a") (scal_Z z) (scal_Z (z + 1))).
  - cbn. tauto.
  - exact One.
  - exact (letter w F L 97%N _ ltac:(letters) La).
  - reflexivity.
  - rewrite run_plus. reflexivity.
  - eapply (sets_local (s_ "a") _ w L 97%N); [letters|reflexivity].
Qed.
Lemma up_true z : z <> 0%Z -> counts (scal_Z z) true.
Proof. intros N. pose proof (counts_int z) as C. destruct (Z.eqb_spec z 0); [contradiction|exact C]. Qed.
Lemma up_spins F w : w_one w -> forall z L, (0 < z)%Z -> L 97%N = scal_Z z ->
  spins F true (pname (s_ "a")) up_body w L.
Proof.
  intros One. cofix IH. intros z L Hz La.
  apply (spins_on F true (pname (s_ "a")) up_body w L [] w L (scal_Z z) [] w (put 97%N (scal_Z (z + 1)) L)).
  - apply evaluates_value. exact (letter w F L 97%N _ ltac:(letters) La).
  - apply up_true. clear IH. lia.
  - apply up_round; assumption.
  - apply (IH (z + 1)%Z); [clear IH; lia|reflexivity].
Qed.
Lemma up_loop F w : w_one w -> forall m L, L 97%N = scal_Z (- Z.of_nat m) ->
  exists L', runs_until F w L true (pname (s_ "a")) up_body [] w L'.
Proof.
  intros One. induction m as [|m IH]; intros L La; pose proof (letter w F L 97%N _ ltac:(letters) La) as Va.
  - exists L. eapply until_stop; [apply evaluates_value; exact Va|exact (counts_int 0)].
  - destruct (IH (put 97%N (scal_Z (- Z.of_nat (S m) + 1)) L)) as (L' & R).
    { change (scal_Z (- Z.of_nat (S m) + 1) = scal_Z (- Z.of_nat m)). f_equal. lia. }
    exists L'. apply (until_again F w L true _ _ [] w L (scal_Z (- Z.of_nat (S m))) [] w
                       (put 97%N (scal_Z (- Z.of_nat (S m) + 1)) L) [] w L').
    + apply evaluates_value. exact Va.
    + apply up_true. lia.
    + apply up_round; assumption.
    + exact R.
Qed.
Theorem up_ends fmt wn input n : (n <= 0)%Z -> prints fmt wn input "Wa{Ua}" [str_of_Z n] [].
Proof.
  intros Hn. set (w := start_setting fmt).
  destruct (up_loop up_program w I (Z.to_nat (- n)) (bound up_program [scal_Z n])) as (L' & R).
  { rewrite Z2Nat.id by lia. rewrite Z.opp_involutive. reflexivity. }
  assert (Iv : invokes w up_program [scal_Z n] [] w PNil).
  { apply (invokes_function w _ _ _ [] w L' [] w L').
    - apply run_last. apply runs_while. exact R.
    - apply evaluates_value. apply hv_object. }
  exact (program_runs _ fmt wn input [str_of_Z n] _ _ w _ up_text Iv).
Qed.
Theorem up_never fmt wn input n : (0 < n)%Z -> never_ends fmt wn input "Wa{Ua}" [str_of_Z n].
Proof.
  intros Hn. apply (program_never _ fmt wn input [str_of_Z n] _ _ up_text).
  apply hangs_now. apply (hangs_loop _ _ _ true). apply until_spins.
  apply (up_spins up_program (start_setting fmt) I n); [exact Hn|reflexivity].
Qed.

(** ** A choice *)
Definition choice_loop : tree pval := pcmd "W" [TTok (Tok KNumber (s_ "1")); TBlk [papp "O" [pname (s_ "i")]]].
Definition choice_program : pval :=
  PBlock [pcmd "I" [pname (s_ "a"); TBlk [choice_loop]; TBlk []]] (TVal PNil).
Lemma choice_text : program_of "Ia{W1{Oi}}" choice_program.
Proof. program. Qed.
Lemma choice_spins F w L : w_var w (s_ "i") (scal_Z 0) ->
  spins F true (TTok (Tok KNumber (s_ "1"))) [papp "O" [pname (s_ "i")]] w L.
Proof.
  intros Hi. cofix IH.
  apply (spins_on F true _ _ w L [] w L (scal_Z 1) ([] ++ shown (w_fmt w) (scal_Z 0)) w L); [| | |exact IH].
  - apply evaluates_value. apply hv_literal; [reflexivity|discriminate|reflexivity].
  - exact (counts_int 1).
  - apply run_last. eapply runs_expression. apply evaluates_output. apply evaluates_value. apply hv_global. exact Hi.
Qed.
Theorem choice_ends fmt wn input t : counts (PScal t) false -> prints fmt wn input "Ia{W1{Oi}}" [t] [].
Proof.
  intros C. set (w := start_setting fmt). set (L := bound choice_program [PScal t]).
  assert (Iv : invokes w choice_program [PScal t] [] w PNil).
  { apply (invokes_function w _ _ _ [] w L [] w L); [|apply evaluates_value; apply hv_object].
    apply run_last. apply (runs_if _ w L false _ _ _ [] w L (PScal t) []); [|exact C|constructor].
    apply evaluates_value. apply (letter _ _ _ 97%N _ ltac:(letters)). reflexivity. }
  exact (program_runs _ fmt wn input [t] _ _ w _ choice_text Iv).
Qed.
Theorem choice_never fmt wn input t : counts (PScal t) true -> never_ends fmt wn input "Ia{W1{Oi}}" [t].
Proof.
  intros C. apply (program_never _ fmt wn input [t] _ _ choice_text).
  set (w := start_setting fmt). set (L := bound _ _).
  apply hangs_now. apply (hangs_if _ w L true _ _ _ [] w L (PScal t)); [|exact C|].
  - apply evaluates_value. apply (letter _ _ _ 97%N _ ltac:(letters)). reflexivity.
  - apply hangs_now. apply (hangs_loop _ _ _ true). apply until_spins. apply choice_spins. apply start_i.
Qed.
