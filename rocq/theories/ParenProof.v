(** * Redundant parentheses do not change what code does (C40) *)

From Coq Require Import String List NArith ZArith Bool Arith Lia.
From Verif Require Import PyStr PyRe Tokens OpFun OpTable Scan Parse PTypes Ops OpsSeq Apply Heap Exec
                          ExecRel ExecInv SpecHeap SpecVars SpecBlock.
Import ListNotations.
Local Open Scope string_scope.
Local Open Scope list_scope.
Local Open Scope nat_scope.

(** ** Code that differs in parentheses only *)

Inductive like : tree hval -> tree hval -> Prop :=
| like_same t : like t t
| like_nil : like (TVal HNil) (TTok nil_token)
| like_nil' : like (TTok nil_token) (TVal HNil)
| like_app o a b : o_fun o <> F_BLOCK -> likes a b -> like (TApp o a) (TApp o b)
| like_blk a b : likes a b -> like (TBlk a) (TBlk b)
| like_cmd c a b : likes a b -> like (TCmd c a) (TCmd c b)
| like_paren o a b : o_fun o <> F_BLOCK -> likes a b -> like (TApp o a) (TApp op_paren [TApp o b])
| like_paren' o a b : o_fun o <> F_BLOCK -> likes a b -> like (TApp op_paren [TApp o a]) (TApp o b)
with likes : list (tree hval) -> list (tree hval) -> Prop :=
| likes_nil : likes [] []
| likes_cons a b l m : like a b -> likes l m -> likes (a :: l) (b :: m).
Scheme like_mind := Minimality for like Sort Prop with likes_mind := Minimality for likes Sort Prop.
Combined Scheme like_both from like_mind, likes_mind.

Lemma like_sym : (forall a b, like a b -> like b a) /\ (forall a b, likes a b -> likes b a).
Proof. apply like_both; intros; constructor; assumption. Qed.

Inductive larg : arg -> arg -> Prop :=
| larg_val x : larg (AVal x) (AVal x)
| larg_tree t t' : like t t' -> larg (ATree t) (ATree t').
Definition largs : list arg -> list arg -> Prop := Forall2 larg.

Lemma larg_same a : larg a a.
Proof. destruct a; constructor. constructor. Qed.
Lemma likes_same l : likes l l.
Proof. induction l; constructor; [constructor|assumption]. Qed.
Lemma likes_args a b : likes a b -> largs (map ATree a) (map ATree b).
Proof. induction 1; constructor; [constructor; assumption|assumption]. Qed.

Definition is_opr (t : tree hval) : bool := match t with TOpr _ => true | _ => false end.
Lemma like_opr t t' : like t t' -> t = t' \/ is_opr t = false /\ is_opr t' = false.
Proof. destruct 1; auto. Qed.

Notation le := (le_fuel _).

Record sim (R R' : interp) : Prop := mksim
  { sim_rel : related le_fuel R R';
    sim_eval : forall t t', like t t' -> le (i_eval R t) (i_eval R' t');
    sim_op : forall o l l', o_fun o <> F_BLOCK -> largs l l' -> le (i_op R o l) (i_op R' o l');
    sim_fun : forall f l l', f <> F_BLOCK -> largs l l' -> le (i_fun R f l) (i_fun R' f l');
    sim_stmt : forall t t', like t t' -> le (i_stmt R t) (i_stmt R' t');
    sim_while : forall b t t' l l', like t t' -> likes l l' -> le (i_while R b t l) (i_while R' b t' l') }.

Lemma le_bind A B (m m' : M A) (f f' : A -> M B) :
  le m m' -> (forall a, le (f a) (f' a)) -> le (mbind m f) (mbind m' f').
Proof. apply (cl_bind _ le_fuel_closed). Qed.
Lemma le_refl A (m : M A) : le m m.
Proof. apply le_fuel_refl. Qed.
Lemma le_mmap A A' B (P : A -> A' -> Prop) (f : A -> M B) (f' : A' -> M B) l l' :
  Forall2 P l l' -> (forall a a', P a a' -> le (f a) (f' a')) -> le (mmap f l) (mmap f' l').
Proof.
  intros F H. induction F as [|x y l l' Px F IH]; cbn [mmap]; [apply le_refl|].
  apply le_bind; [apply H, Px|]. intros v. apply le_bind; [exact IH|]. intros vs. apply le_refl.
Qed.
Lemma le_mfor B (f f' : tree hval -> M B) l l' :
  likes l l' -> (forall a a', like a a' -> le (f a) (f' a')) -> le (mfor f l) (mfor f' l').
Proof.
  intros F H. induction F as [|x y l l' Px F IH]; cbn [mfor]; [apply le_refl|].
  apply le_bind; [apply H, Px|]. intros _. exact IH.
Qed.

Section Sim.
  Variables R R' : interp.
  Hypothesis S : sim R R'.
  Let C := le_fuel_closed.
  Let Rel := sim_rel _ _ S.

  Lemma s_eval_arg a a' : larg a a' -> le (eval_arg R a) (eval_arg R' a').
  Proof. intros [x|t t' L]; [apply le_refl|]. apply (sim_eval _ _ S), L. Qed.
  Lemma s_rval_arg a a' : larg a a' -> le (rval_arg R a) (rval_arg R' a').
  Proof.
    intros [x|t t' L]; [apply le_refl|].
    destruct (like_opr t t' L) as [->|[E E']]; [apply (r_rval_arg _ C _ _ Rel)|].
    assert (X : forall Q u, is_opr u = false -> rval_arg Q (ATree u) = mbind (i_eval Q u) rval_x)
      by (intros Q [] H; try discriminate H; reflexivity).
    rewrite !X by assumption. apply le_bind; [apply (sim_eval _ _ S), L|]. intros x. apply le_refl.
  Qed.
  Lemma s_rval_arg_h a a' : larg a a' -> le (rval_arg_h R a) (rval_arg_h R' a').
  Proof. intros L. apply le_bind; [apply s_rval_arg, L|]. intros x. apply le_refl. Qed.
  Lemma s_rval_tree t t' : like t t' -> le (rval_tree R t) (rval_tree R' t').
  Proof. intros L. apply s_rval_arg_h. constructor. exact L. Qed.
  Lemma s_evals l l' : largs l l' -> le (mmap (eval_arg R) l) (mmap (eval_arg R') l').
  Proof. intros F. apply (le_mmap _ _ _ _ _ _ _ _ F s_eval_arg). Qed.

  (** *** Calls *)

  Definition is_val (a : arg) : bool := match a with AVal _ => true | _ => false end.
  Lemma vals_same l l' : largs l l' -> forallb is_val l = true -> l = l'.
  Proof.
    induction 1 as [|a a' l l' L F IH]; [reflexivity|]. cbn [forallb]. intros E.
    apply andb_prop in E. destruct E as [E1 E2]. rewrite (IH E2). destruct L; [reflexivity|discriminate E1].
  Qed.
  Lemma s_pure f l l' : largs l l' -> le (pure_call f l) (pure_call f l').
  Proof.
    intros F. unfold pure_call. apply le_bind; [|intros vs; apply le_refl].
    unfold args_r. apply (le_mmap _ _ _ _ _ _ _ _ F). intros a a' [x|t t' L]; apply le_refl.
  Qed.

  (** Only these take operands that are not evaluated yet. *)
  Definition lazy_fun (f : opfun) : bool :=
    match f with F_AND | F_OR | F_IFTE | F_BLOCK | F_LIST | F_SEND | F_CHAIN => true | _ => false end.
  Lemma lazy_pure Q f l : lazy_fun f = false -> forallb is_val l = false -> call_fun Q f l = pure_call f l.
  Proof.
    intros Z E. destruct l as [|a [|b [|c [|d l]]]].
    - discriminate E.
    - destruct a; [destruct f; try reflexivity; discriminate Z|discriminate E].
    - destruct a as [t|[]], b as [t'|[]]; try discriminate E; destruct f; try reflexivity; discriminate Z.
    - destruct a as [t|[]], b as [t'|[]], c as [t''|[]]; try discriminate E; destruct f;
        first [reflexivity | discriminate Z | destruct h; reflexivity | destruct h0; reflexivity].
    - destruct a as [t|[]], b as [t'|[]], c as [t''|[]]; destruct f;
        first [reflexivity | discriminate Z | match goal with h : hval |- _ => destruct h; reflexivity end].
  Qed.

  Lemma s_call_fun f l l' : f <> F_BLOCK -> largs l l' -> le (call_fun R f l) (call_fun R' f l').
  Proof.
    intros NB F. destruct (forallb is_val l) eqn:V.
    - rewrite (vals_same _ _ F V). apply (r_call_fun _ C _ _ Rel).
    - assert (V' : forallb is_val l' = false).
      { rewrite <- V. clear -F. induction F as [|a a' l l' L F IH]; [reflexivity|]. cbn [forallb].
        rewrite IH. destruct L; reflexivity. }
      destruct (lazy_fun f) eqn:Z; [|rewrite !lazy_pure by assumption; apply s_pure, F].
      destruct f; try discriminate Z.
      + (* AND *) destruct F as [|a a' l l' L F]; [apply (s_pure F_AND); constructor|].
        destruct F as [|b b' l l' L' F].
        { destruct L; apply (s_pure F_AND); repeat constructor; assumption. }
        destruct F as [|c c' l l' L'' F].
        2: { change (le (pure_call F_AND (a :: b :: c :: l)) (pure_call F_AND (a' :: b' :: c' :: l'))).
             apply s_pure. repeat constructor; assumption. }
        cbn [call_fun]. apply le_bind; [apply s_rval_arg_h, L|]. intros v.
        apply le_bind; [apply le_refl|]. intros []; [|apply le_refl].
        apply le_bind; [apply s_rval_arg_h, L'|]. intros w. apply le_refl.
      + (* BLOCK *) congruence.
      + (* CHAIN *) assert (X : forall Q x, call_fun Q F_CHAIN x = mbind (mmap (eval_arg Q) x) (CHAIN Q))
          by (intros Q [|[|[]] [|[|[]] [|[|[]] ?]]]; reflexivity).
        rewrite !X. apply le_bind; [apply s_evals, F|]. intros xs. apply (r_CHAIN _ C _ _ Rel).
      + (* IFTE *) destruct F as [|a a' l l' L F]; [apply (s_pure F_IFTE); constructor|].
        destruct F as [|b b' l l' L' F].
        { destruct L; apply (s_pure F_IFTE); repeat constructor; assumption. }
        destruct F as [|c c' l l' L'' F].
        { destruct L, L'; apply (s_pure F_IFTE); repeat constructor; assumption. }
        destruct F as [|d d' l l' L3 F].
        2: { change (le (pure_call F_IFTE (a :: b :: c :: d :: l)) (pure_call F_IFTE (a' :: b' :: c' :: d' :: l'))).
             apply s_pure. repeat constructor; assumption. }
        cbn [call_fun]. apply le_bind; [apply s_rval_arg_h, L|]. intros v.
        apply le_bind; [apply le_refl|]. intros []; apply s_eval_arg; assumption.
      + (* LIST *) assert (X : forall Q x, call_fun Q F_LIST x = mbind (mmap (eval_arg Q) x) LIST)
          by (intros Q [|[|[]] [|[|[]] [|[|[]] ?]]]; reflexivity).
        rewrite !X. apply le_bind; [apply s_evals, F|]. intros xs. apply le_refl.
      + (* OR *) destruct F as [|a a' l l' L F]; [apply (s_pure F_OR); constructor|].
        destruct F as [|b b' l l' L' F].
        { destruct L; apply (s_pure F_OR); repeat constructor; assumption. }
        destruct F as [|c c' l l' L'' F].
        2: { change (le (pure_call F_OR (a :: b :: c :: l)) (pure_call F_OR (a' :: b' :: c' :: l'))).
             apply s_pure. repeat constructor; assumption. }
        cbn [call_fun]. apply le_bind; [apply s_rval_arg_h, L|]. intros v.
        apply le_bind; [apply le_refl|]. intros []; [apply le_refl|].
        apply le_bind; [apply s_rval_arg_h, L'|]. intros w. apply le_refl.
      + (* SEND *) destruct F as [|a a' l l' L F]; [apply (s_pure F_SEND); constructor|].
        destruct L as [x|t t' L].
        * change (le (mbind (mmap (eval_arg R) l) (SEND R x)) (mbind (mmap (eval_arg R') l') (SEND R' x))).
          apply le_bind; [apply s_evals, F|]. intros xs. apply (r_SEND _ C _ _ Rel).
        * change (le (pure_call F_SEND (ATree t :: l)) (pure_call F_SEND (ATree t' :: l'))).
          apply s_pure. repeat constructor; assumption.
  Qed.

  (** *** Operators *)

  Lemma s_each o (g g' : hval -> list arg) items : o_fun o <> F_BLOCK -> (forall v, largs (g v) (g' v)) ->
    le (each_result R o g items) (each_result R' o g' items).
  Proof.
    intros NB H. unfold each_result. apply le_bind; [|intros rs; apply le_refl].
    apply (r_mmap _ C). intros v. apply le_bind; [apply (sim_op _ _ S), H; exact NB|]. intros x. apply le_refl.
  Qed.
  Lemma s_apply o l l' : o_fun o <> F_BLOCK -> largs l l' -> le (apply_x R o l) (apply_x R' o l').
  Proof.
    intros NB F. destruct (forallb is_val l) eqn:V.
    { rewrite (vals_same _ _ F V). apply (r_apply_x _ C _ _ Rel). }
    pose proof (s_call_fun (o_fun o) _ _ NB F) as K.
    destruct F as [|a a' l l' L F]; [discriminate V|]. destruct F as [|b b' l l' L' F].
    { destruct L as [x|t t' L]; [discriminate V|]. exact K. }
    destruct F as [|c c' l l' L'' F]; [|exact K].
    unfold apply_x. cbv zeta.
    destruct L as [x|t t' L], L' as [y|u u' L']; [discriminate V| | |exact K].
    - destruct x as [v| |]; try exact K. destruct (expands_x (o_flags o) (XR v)); [|exact K].
      apply le_bind; [apply le_refl|]. intros items. apply s_each; [exact NB|].
      intros it. repeat constructor. exact L'.
    - destruct y as [v| |]; try exact K. destruct (expands_x (o_flags o) (XR v)); [|exact K].
      apply le_bind; [apply le_refl|]. intros items. apply s_each; [exact NB|].
      intros it. repeat constructor. exact L.
  Qed.

  Lemma s_eval_op o l l' : o_fun o <> F_BLOCK -> largs l l' -> le (eval_op R o l) (eval_op R' o l').
  Proof.
    intros NB F. unfold eval_op. destruct (o_assign o).
    { destruct F as [|a a' l l' L F]; [apply le_refl|]. apply le_bind; [apply s_eval_arg, L|]. intros lv.
      apply le_bind; [|intros r; apply (r_ASSIGN _ C)].
      apply (sim_op _ _ S); [exact NB|]. constructor; [constructor|exact F]. }
    destruct (o_map o).
    { destruct F as [|a a' l l' L F]; [apply le_refl|]. unfold MAPMETA.
      apply le_bind; [apply s_rval_arg_h, L|]. intros v. cbv zeta.
      pose proof (r_MAPMETA _ C _ _ Rel o (AVal (XR v))) as K. exact K. }
    destruct (o_fold o).
    { destruct F as [|a a' l l' L F]; [apply le_refl|]. unfold FOLDMETA.
      apply le_bind; [apply s_rval_arg_h, L|]. intros v. cbv zeta.
      pose proof (r_FOLDMETA _ C _ _ Rel o (AVal (XR v))) as K. exact K. }
    destruct (o_scan o).
    { destruct F as [|a a' l l' L F]; [apply le_refl|]. unfold SCANMETA.
      apply le_bind; [apply s_rval_arg_h, L|]. intros v. cbv zeta.
      pose proof (r_SCANMETA _ C _ _ Rel o (AVal (XR v))) as K. exact K. }
    destruct (f_rvals (o_flags o) || f_vals (o_flags o)) eqn:E.
    - apply le_bind.
      + apply (le_mmap _ _ _ _ _ _ _ _ F). intros a a' L. unfold prepare. rewrite E.
        apply le_bind; [|intros x; apply le_refl].
        destruct (f_rvals (o_flags o)); [apply s_rval_arg, L|apply s_eval_arg, L].
      + intros prepared. cbv zeta. destruct (existsb snd prepared).
        * apply le_bind; [apply (r_mmap _ C); intros a; apply (r_rval_arg _ C _ _ Rel)|]. intros xs. apply le_refl.
        * apply (cl_catch _ C). apply (r_apply_x _ C _ _ Rel).
    - assert (X : forall Q x s, mmap (prepare Q (o_flags o)) x s = Ok (map (fun a => (a, false)) x) s).
      { intros Q x s. induction x as [|a x IH]; [reflexivity|]. cbn [mmap map]. unfold mbind, prepare at 1.
        rewrite E. unfold mret at 1. rewrite IH. reflexivity. }
      assert (Y : forall x : list arg, existsb snd (map (fun a => (a, false)) x) = false)
        by (induction x; [reflexivity|assumption]).
      assert (K : forall Q x s, (prepared <- mmap (prepare Q (o_flags o)) x;;
                if existsb snd prepared
                then xs <- mmap (rval_arg Q) (map fst prepared);; xret (lambda_x o xs)
                else catch_type (apply_x Q o (map fst prepared))) s = catch_type (apply_x Q o x) s).
      { intros Q x s. unfold mbind at 1. rewrite X, Y, map_map. cbn [fst]. rewrite map_id. reflexivity. }
      intros s. cbv zeta. rewrite !K. apply (cl_catch _ C). apply s_apply; assumption.
  Qed.

  (** *** Statements *)

  Lemma s_run_body l l' : likes l l' -> le (run_body R l) (run_body R' l').
  Proof. intros F. apply (le_mfor _ _ _ _ _ F). apply (sim_stmt _ _ S). Qed.
  Lemma like_body t t' : like t t' -> likes (body t) (body t').
  Proof. destruct 1; try constructor; [apply likes_same|assumption]. Qed.
  Lemma s_body t t' : like t t' -> le (run_body R (body t)) (run_body R' (body t')).
  Proof. intros L. apply s_run_body, like_body, L. Qed.

  Lemma s_exec_cmd c l l' : likes l l' -> le (exec_cmd R c l) (exec_cmd R' c l').
  Proof.
    intros F. unfold exec_cmd.
    destruct F as [|t t' l l' L F]; [destruct (c_fun c); apply le_refl|].
    destruct F as [|u u' l l' L' F]; [destruct (c_fun c); apply le_refl|].
    destruct F as [|v v' l l' L'' F].
    - destruct (c_fun c); try apply le_refl.
      + (* LOOP *) apply le_bind; [apply s_rval_tree, L|]. intros w.
        destruct w; try apply le_refl;
          (apply le_bind; [apply le_refl|]; intros n; try destruct n; try apply le_refl;
           apply (r_mrepeat _ C); apply s_body, L').
      + apply (sim_while _ _ S); [exact L|apply like_body, L'].
      + apply (sim_while _ _ S); [exact L|apply like_body, L'].
    - destruct F as [|x x' l l' L3 F]; [|destruct (c_fun c); apply le_refl].
      destruct (c_fun c); try apply le_refl.
      + (* FOR *) apply le_bind; [apply (sim_eval _ _ S), L|]. intros x.
        apply le_bind; [apply s_rval_tree, L'|]. intros w. destruct x as [|lv|]; try apply le_refl.
        assert (K : le (items <- h_iter w;; mfor (fun item => assign lv item;; run_body R (body v)) items)
                       (items <- h_iter w;; mfor (fun item => assign lv item;; run_body R' (body v')) items)).
        { apply le_bind; [apply le_refl|]. intros items. apply (r_mfor _ C). intros it.
          apply le_bind; [apply le_refl|]. intros _. apply s_body, L''. }
        destruct w; try apply le_refl; exact K.
      + (* IF *) apply le_bind; [apply s_rval_tree, L|]. intros w. apply le_bind; [apply le_refl|].
        intros []; apply s_body; assumption.
      + (* LOOPREGEX *) apply le_bind; [apply s_rval_tree, L|]. intros w.
        apply le_bind; [apply s_rval_tree, L'|]. intros w'.
        apply le_bind; [apply le_refl|]. intros [hits|]; [|apply le_refl].
        apply (r_mfor _ C). intros h. apply le_bind; [apply le_refl|]. intros _. apply s_body, L''.
  Qed.
  Lemma s_while b t t' l l' : like t t' -> likes l l' -> le (while_loop R b t l) (while_loop R' b t' l').
  Proof.
    intros L F. unfold while_loop. apply le_bind; [apply s_rval_tree, L|]. intros v.
    apply le_bind; [apply le_refl|]. intros a. destruct (eqb a b); [|apply le_refl].
    apply le_bind; [apply s_run_body, F|]. intros _. apply (sim_while _ _ S); assumption.
  Qed.
  Lemma s_exec_stmt t t' : like t t' -> le (exec_stmt R t) (exec_stmt R' t').
  Proof.
    intros L.
    assert (K : le (v <- rval_tree R t;; mret (Some v)) (v <- rval_tree R' t';; mret (Some v))).
    { apply le_bind; [apply s_rval_tree, L|]. intros v. apply le_refl. }
    destruct L as [t| | |o a b NB F|a b F|c a b F|o a b NB F|o a b NB F]; try exact K.
    - apply (r_exec_stmt _ C _ _ Rel).
    - apply le_refl.
    - cbn [exec_stmt]. apply le_bind; [apply s_exec_cmd, F|]. intros _. apply le_refl.
  Qed.
  Lemma s_run_stmts l l' : likes l l' -> le (run_stmts R l) (run_stmts R' l').
  Proof.
    intros F. apply (le_mfor _ _ _ _ _ F). intros t t' L.
    apply le_bind; [apply (sim_stmt _ _ S), L|]. intros r. apply le_refl.
  Qed.
End Sim.

(** ** Parentheses *)

Lemma paren_op R t s : eval_op R op_paren [ATree t] s = i_eval R t s.
Proof.
  unfold eval_op. cbn [op_paren o_assign o_map o_fold o_scan o_flags mmap]. unfold prepare, eval_arg. cbn.
  unfold mbind. destruct (i_eval R t s) as [x s'| |]; try reflexivity.
  destruct x as [[]| |]; reflexivity.
Qed.

Lemma paren_eval n t s : i_eval (run (S (S n))) (TApp op_paren [t]) s = i_eval (run n) t s.
Proof. exact (paren_op (run n) t s). Qed.

Lemma run_sim : forall n, sim (run n) (run (3 * n)).
Proof.
  induction n as [n IH] using lt_wf_ind. destruct n as [|n].
  { constructor; [constructor|..]; intros; intro; left; reflexivity. }
  pose proof (IH n ltac:(lia)) as Sn.
  assert (M : related le_fuel (run (S (3 * n))) (run (3 * S n))) by (apply run_le_fuel_le; lia).
  constructor.
  - apply run_le_fuel_le. lia.
  - intros t t' L. destruct L as [t| | |o a b NB F|a b F|c a b F|o a b NB F|o a b NB F].
    + apply (re_eval _ _ _ (run_le_fuel_le (S n) (3 * S n) ltac:(lia))).
    + replace (3 * S n) with (S (S (S (3 * n)))) by lia. intros s. right. destruct s. reflexivity.
    + replace (3 * S n) with (S (S (S (3 * n)))) by lia. intros s. right. destruct s. reflexivity.
    + eapply le_fuel_trans; [|apply (re_eval _ _ _ M)]. apply (sim_op _ _ Sn); [exact NB|apply likes_args, F].
    + intros s. right. replace (3 * S n) with (S (S (S (3 * n)))) by lia. reflexivity.
    + intros s. right. replace (3 * S n) with (S (S (S (3 * n)))) by lia. reflexivity.
    + replace (3 * S n) with (S (S (S (3 * n)))) by lia. intros s. rewrite paren_eval.
      apply (sim_op _ _ Sn); [exact NB|apply likes_args, F].
    + destruct n as [|n]; [intros s; left; reflexivity|]. intros s. rewrite paren_eval.
      assert (M' : related le_fuel (run (3 * n)) (run (3 * S (S n)))) by (apply run_le_fuel_le; lia).
      apply (le_fuel_trans _ _ _ _ (sim_eval _ _ (IH n ltac:(lia)) _ _ (like_app o a b NB F)) (re_eval _ _ _ M' _)).
  - intros o l l' NB F. eapply le_fuel_trans; [|apply (re_op _ _ _ M)]. apply s_eval_op; assumption.
  - intros f l l' NB F. eapply le_fuel_trans; [|apply (re_fun _ _ _ M)]. apply s_call_fun; assumption.
  - intros t t' L. eapply le_fuel_trans; [|apply (re_stmt _ _ _ M)]. apply s_exec_stmt; assumption.
  - intros b t t' l l' L F. eapply le_fuel_trans; [|apply (re_while _ _ _ M)]. apply s_while; assumption.
Qed.

(** ** The same outcomes *)

Lemma like_outcome t t' : like t t' -> forall s o, o <> Fuel ->
  (exists n, rval_tree (run n) t s = o) -> exists n, rval_tree (run n) t' s = o.
Proof.
  intros L s o N0 [n E]. exists (3 * n). destruct (s_rval_tree _ _ (run_sim n) t t' L s) as [F|F]; congruence.
Qed.
Lemma like_stmt t t' : like t t' -> forall s o, o <> Fuel ->
  (exists n, i_stmt (run n) t s = o) -> exists n, i_stmt (run n) t' s = o.
Proof.
  intros L s o N0 [n E]. exists (3 * n). destruct (sim_stmt _ _ (run_sim n) t t' L s) as [F|F]; congruence.
Qed.
Lemma like_function sts sts' ret ret' : likes sts sts' -> like ret ret' -> forall s o, o <> Fuel ->
  (exists n, (run_stmts (run n) sts;; rval_tree (run n) ret) s = o) ->
  exists n, (run_stmts (run n) sts';; rval_tree (run n) ret') s = o.
Proof.
  intros Ls L s o N0 [n E]. exists (3 * n).
  assert (K : le (run_stmts (run n) sts;; rval_tree (run n) ret)
                 (run_stmts (run (3 * n)) sts';; rval_tree (run (3 * n)) ret')).
  { apply le_bind; [apply (s_run_stmts _ _ (run_sim n) _ _ Ls)|]. intros _. apply (s_rval_tree _ _ (run_sim n) _ _ L). }
  destruct (K s) as [F|F]; congruence.
Qed.

Scheme reread_mind := Minimality for reread Sort Prop with rereads_mind := Minimality for rereads Sort Prop.
Combined Scheme reread_both from reread_mind, rereads_mind.

Definition all_blockless {V} (l : list (tree V)) : Prop :=
  (fix all l := match l with [] => True | x :: l' => blockless x /\ all l' end) l.

Lemma reread_like :
  (forall t t' : tree hval, reread HNil t t' -> blockless t -> like t t')
  /\ (forall l l' : list (tree hval), rereads HNil l l' -> all_blockless l -> likes l l').
Proof.
  apply (reread_both hval hval HNil (fun t t' => blockless t -> like t t') (fun l l' => all_blockless l -> likes l l')).
  - intros k _. constructor.
  - intros _. constructor.
  - intros o _. constructor.
  - intros o a b _ IH [N0 A]. constructor; [exact N0|]. apply IH, A.
  - intros a b _ IH A. constructor. apply IH, A.
  - intros c a b _ IH A. constructor. apply IH, A.
  - intros o a b _ IH [N0 A]. constructor; [exact N0|]. apply IH, A.
  - intros _. constructor.
  - intros a b l m _ IH _ IHs [A As]. constructor; auto.
Qed.
