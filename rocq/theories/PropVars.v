(** * Properties C41, C42, C45, C48, C61: variables and expressions *)

From Coq Require Import String List NArith ZArith Bool Arith Lia.
From Verif Require Import PyStr PyNum Tokens OpFun OpTable PTypes Ops Apply Spec Heap Exec
                          SpecHeap SpecExec SpecScan SpecVars PropExec.
From Verif Require EvalProof VarProof CtlProof PureProof.
Import ListNotations.
Local Open Scope string_scope.
Local Open Scope list_scope.
Local Open Scope Z_scope.

(** ** C41: a variable has the value last assigned to it *)

(** Reading gives a new object with the value of the variable. *)
Theorem C41_read : forall s x p,
  ordinary s x -> var s x p ->
  exists v s', gives s (name x) v s' /\ den (st_heap s') v p /\ only_adds s s'.
Proof.
  intros s x p O V. destruct (VarProof.read_name s x p O V) as (v & s' & G & D & A & _). eauto.
Qed.
Print Assumptions C41_read.

(** After [x:e] the variable has the value of [e]; the others have the values
    they had when [e] had been evaluated. *)
Theorem C41_assign : forall s x e w s',
  ordinary s x -> gives s (app ":" [name x; e]) w s' ->
  exists v s1, gives s e v s1 /\
    forall p, den (st_heap s1) v p ->
      var s' x p /\ den (st_heap s') w p /\
      forall y q, y <> x -> var s1 y q -> var s' y q.
Proof.
  intros s x e w s' O G. destruct (VarProof.assign_expr s x e w s' O G) as (v & s1 & G1 & H1 & H2).
  exists v, s1. split; [exact G1|]. intros p D. destruct (H1 p D). eauto.
Qed.
Print Assumptions C41_assign.

(** Such an assignment always succeeds. *)
Theorem C41_assign_ends : forall s x e v s1 p,
  ordinary s x -> gives s e v s1 -> den (st_heap s1) v p -> st_scopes s1 <> [] ->
  exists w s', gives s (app ":" [name x; e]) w s'.
Proof. exact VarProof.assign_ends. Qed.
Print Assumptions C41_assign_ends.

(** Writing and then reading. *)
Theorem C41_read_back : forall s x e p,
  ordinary s x -> st_scopes s <> [] -> means s e p ->
  exists w s' v s'', gives s (app ":" [name x; e]) w s'
    /\ gives s' (name x) v s'' /\ den (st_heap s'') v p.
Proof.
  intros s x e p O NS M.
  destruct (PureProof.means_gives s e p M) as (v & s1 & G & D & A).
  assert (NS1 : st_scopes s1 <> []).
  { destruct A as (_ & A & _). rewrite A. exact NS. }
  destruct (VarProof.assign_ends s x e v s1 p O G D NS1) as (w & s' & G').
  destruct (C41_assign s x e w s' O G') as (v2 & s2 & G2 & H).
  destruct (VarProof.gives_fun _ _ _ _ _ _ G G2) as [-> ->].
  destruct (H p D) as (Vx & _).
  assert (O' : ordinary s' x) by exact (VarProof.io_ordinary _ _ _ _ (VarProof.gives_io _ _ _ _ G') O).
  destruct (C41_read s' x p O' Vx) as (u & s3 & G3 & D3 & _).
  exists w, s', u, s3. auto.
Qed.
Print Assumptions C41_read_back.

(** In a fresh state, and with a local variable of a nested call. *)
Example C41_ex :
  output_of "x:[1 2] c:x y:x x:3 P y P c x" []
  = Some (s_ "12" ++ [10%N] ++ s_ "12" ++ [10%N] ++ s_ "3" ++ [10%N]).
Proof. vm_compute. reflexivity. Qed.

(** ** C42, on variables: after a call the local names of the caller (a to g,
    $_ ...) are bound to the same objects, whatever the function assigned. *)
Theorem C42_locals_partial : forall n f args s v s' x o,
  i_call (run n) f args s = Ok v s' -> st_swallowed s' = st_swallowed s ->
  is_local x -> binding s x o -> binding s' x o.
Proof.
  intros n f args s v s' x o E W L B.
  destruct (C42_call_partial n f args s v s' E W) as [Es _].
  destruct B as [sc rest _ E0|N]; [|contradiction].
  apply binding_local with (rest := rest); [exact L|congruence].
Qed.
Print Assumptions C42_locals_partial.

(** ** C45: destructuring and exchange *)

Theorem C45_names : forall s xs e v s1 p f,
  xs <> [] -> NoDup xs -> Forall (ordinary s) xs -> st_scopes s1 <> [] ->
  gives s e v s1 -> den (st_heap s1) v p -> items_of p f ->
  exists w s', gives s (app ":" [display (map name xs); e]) w s' /\
    (forall i x, nth_error xs i = Some x -> var s' x (or_nil (f i))) /\
    (forall y q, ~ In y xs -> var s1 y q -> var s' y q).
Proof. exact VarProof.assign_names. Qed.
Print Assumptions C45_names.

(** Any rearrangement of variables is simultaneous: [[x1...xn]:[y1...yn]]. *)
Theorem C45_simultaneous : forall s xs ys ps,
  xs <> [] -> NoDup xs -> Forall (ordinary s) xs -> Forall (ordinary s) ys ->
  st_scopes s <> [] -> length xs = length ys -> Forall2 (var s) ys ps ->
  exists w s', gives s (app ":" [display (map name xs); display (map name ys)]) w s' /\
    Forall2 (var s') xs ps /\
    (forall z q, ~ In z xs -> var s z q -> var s' z q).
Proof.
  intros s xs ys ps NE ND Ox Oy NS L F.
  assert (NEy : ys <> []) by (intros ->; destruct xs; [congruence|discriminate]).
  destruct (VarProof.gives_names s ys ps NEy Oy F) as (v & s1 & G & A & D).
  assert (NS1 : st_scopes s1 <> []) by (rewrite (EvalProof.adv_scopes _ _ A); exact NS).
  destruct (VarProof.assign_names s xs (display (map name ys)) v s1 (PList ps)
              (fun i => nth_error ps i) NE ND Ox NS1 G D (items_elems _ _ (elems_list ps)))
    as (w & s' & G' & H1 & H2).
  exists w, s'. split; [exact G'|]. split.
  - assert (Lp : length xs = length ps).
    { rewrite L. clear - F. induction F; cbn; congruence. }
    clear - H1 Lp. revert ps Lp H1. induction xs as [|x xs IH]; intros [|p ps] Lp H1;
      try discriminate; constructor.
    + exact (H1 O x eq_refl).
    + apply IH; [injection Lp as Lp; exact Lp|]. intros i y E. exact (H1 (S i) y E).
  - intros z q NI V. apply H2; [exact NI|]. exact (VarProof.adv_var _ _ _ _ A V).
Qed.
Print Assumptions C45_simultaneous.

Theorem C45_swap : forall s x y p q,
  x <> y -> ordinary s x -> ordinary s y -> st_scopes s <> [] ->
  var s x p -> var s y q ->
  exists w s', gives s (app "::" [name x; name y]) w s' /\ den (st_heap s') w q /\
    var s' x q /\ var s' y p /\
    (forall z r, z <> x -> z <> y -> var s z r -> var s' z r).
Proof. exact VarProof.swap_names. Qed.
Print Assumptions C45_swap.

Example C45_ex :
  output_of "x:1 y:[2 3] [x y]:[y x] P x P y x::y P x P y [x y z]:,2 P x P y P RP z" []
  = Some (s_ "23" ++ [10%N] ++ s_ "1" ++ [10%N] ++ s_ "1" ++ [10%N] ++ s_ "23" ++ [10%N]
          ++ s_ "0" ++ [10%N] ++ s_ "1" ++ [10%N] ++ s_ "()" ++ [10%N] ++ s_ "()" ++ [10%N]).
Proof. vm_compute. reflexivity. Qed.

(** ** C48: short circuits *)

Theorem C48_and_false : forall a b s v s1 p,
  gives s a v s1 -> den (st_heap s1) v p -> counts p false ->
  gives s (app "&" [a; b]) v s1.
Proof.
  intros a b s v s1 p G D C. apply CtlProof.counts_bool in C.
  exact (CtlProof.and_false a b s v s1 p G D C).
Qed.
Print Assumptions C48_and_false.

Theorem C48_and_true : forall a b s v s1 p,
  gives s a v s1 -> den (st_heap s1) v p -> counts p true ->
  continues s1 b s (app "&" [a; b]).
Proof.
  intros a b s v s1 p G D C. apply CtlProof.counts_bool in C.
  exact (CtlProof.and_true a b s v s1 p G D C).
Qed.
Print Assumptions C48_and_true.

Theorem C48_or_true : forall a b s v s1 p,
  gives s a v s1 -> den (st_heap s1) v p -> counts p true ->
  gives s (app "|" [a; b]) v s1.
Proof.
  intros a b s v s1 p G D C. apply CtlProof.counts_bool in C.
  exact (CtlProof.or_true a b s v s1 p G D C).
Qed.
Print Assumptions C48_or_true.

Theorem C48_or_false : forall a b s v s1 p,
  gives s a v s1 -> den (st_heap s1) v p -> counts p false ->
  continues s1 b s (app "|" [a; b]).
Proof.
  intros a b s v s1 p G D C. apply CtlProof.counts_bool in C.
  exact (CtlProof.or_false a b s v s1 p G D C).
Qed.
Print Assumptions C48_or_false.

Theorem C48_if : forall a b c s v s1 p (t : bool),
  gives s c v s1 -> den (st_heap s1) v p -> counts p t ->
  continues s1 (if t then a else b) s (app "?" [c; a; b]).
Proof.
  intros a b c s v s1 p t G D C. apply CtlProof.counts_bool in C. subst t.
  exact (CtlProof.ifte_branch a b c s v s1 p G D).
Qed.
Print Assumptions C48_if.

(** Every value counts as true or as false. *)
Theorem C48_counts : forall p, exists b, counts p b /\ ~ counts p (negb b).
Proof.
  intros p. exists (p_bool p). rewrite !CtlProof.counts_bool.
  split; [reflexivity|]. destruct (p_bool p); discriminate.
Qed.
Print Assumptions C48_counts.

Example C48_ex :
  output_of "0&O7" [] = Some (s_ "0" ++ [10%N])
  /\ output_of "2&O7" [] = Some (s_ "77" ++ [10%N])
  /\ output_of "0|O7" [] = Some (s_ "77" ++ [10%N])
  /\ output_of "2|O7" [] = Some (s_ "2" ++ [10%N])
  /\ output_of "[]?O7O8" [] = Some (s_ "88" ++ [10%N]).
Proof. vm_compute. repeat split; reflexivity. Qed.

(** ** C61: operators on values *)

(** The outcome of such an operator, from the values of its operands.  ([Hang]
    is the endless iteration over an infinite Range.) *)
Theorem C61_operator : forall text es s vs s1 ps,
  value_operator text (length es) ->
  operands s es vs s1 -> dens (st_heap s1) vs ps ->
  match snd (run_op (st_fmt s) text ps) with
  | Val p => exists v s', gives s (app text es) v s' /\ den (st_heap s') v p
                          /\ only_adds s1 s'
  | Exn Hang => True
  | Exn e => exists s', fails s (app text es) (reported (EPy e)) s' /\ only_adds s1 s'
  end.
Proof.
  intros text es s vs s1 ps (o & Fo & Vo) Os D.
  pose proof (PureProof.value_result text es s vs s1 ps o Fo Vo Os D) as H.
  destruct (snd (run_op (st_fmt s) text ps)) as [p|e].
  - destruct H as (v & s' & E & Dv & A). exists v, s'.
    split; [|split; [exact Dv|apply VarProof.adv_only_adds; exact A]].
    apply VarProof.gives_evals. exists (XR v), s'. split; [exact E|reflexivity].
  - destruct e; try exact I; destruct H as (s' & F & A); exists s'; split;
      try exact F; apply VarProof.adv_only_adds; exact A.
Qed.
Print Assumptions C61_operator.

(** Expressions built from literals, variables, list displays and such
    operators have the value computed from the values of the variables, and
    evaluating them changes nothing. *)
Theorem C61_expression : forall s e p,
  means s e p -> exists v s', gives s e v s' /\ den (st_heap s') v p /\ only_adds s s'.
Proof. exact PureProof.means_gives. Qed.
Print Assumptions C61_expression.

(** How many operators of the table this is about. *)
Definition is_value_op (o : oper) : bool :=
  negb (o_assign o) && negb (o_map o) && negb (o_fold o) && negb (o_scan o)
  && f_rvals (o_flags o) && value_fun (o_fun o) (o_arity o).
Example C61_count :
  (length (filter is_value_op all_ops), length all_ops) = (173, 234)%nat.
Proof. vm_compute. reflexivity. Qed.

(** [1+[2 3]*4] is the List of 9 and 13 in every state. *)
Definition num (t : string) : tree hval := TTok (Tok KNumber (s_ t)).
Example C61_ex : forall s,
  means s (app "+" [num "1"; app "*" [display [num "2"; num "3"]; num "4"]])
          (PList [PScal (s_ "9"); PScal (s_ "13")]).
Proof.
  intros s. assert (N : forall t, means s (num t) (PScal (s_ t))).
  { intros t. apply means_literal; [reflexivity|discriminate|reflexivity]. }
  apply means_app with (ps := [PScal (s_ "1"); PList [PScal (s_ "8"); PScal (s_ "12")]]).
  - eexists. split; [vm_compute; reflexivity|constructor; reflexivity].
  - constructor; [apply N|]. constructor; [|constructor].
    apply means_app with (ps := [PList [PScal (s_ "2"); PScal (s_ "3")]; PScal (s_ "4")]).
    + eexists. split; [vm_compute; reflexivity|constructor; reflexivity].
    + constructor; [|constructor; [apply N|constructor]].
      apply means_display. constructor; [apply N|]. constructor; [apply N|constructor].
    + destruct (st_fmt s); vm_compute; reflexivity.
  - destruct (st_fmt s); vm_compute; reflexivity.
Qed.
