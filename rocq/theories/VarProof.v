(** * Running expressions step by step; reading and assigning variables *)

From Coq Require Import String List NArith ZArith Bool Arith Lia.
From Verif Require Import PyStr PyRe PyNum Tokens OpFun OpTable Unparse Scan Parse
                          PTypes Ops OpsSeq Apply Spec StrFacts PFacts SeqProof ItemProof
                          Heap Exec SpecHeap HeapProof ExecRel ExecInv EvalProof
                          SpecScan SpecVars.
Import ListNotations.
Local Open Scope string_scope.
Local Open Scope list_scope.
Local Open Scope Z_scope.

(** ** Inverting computations *)
Lemma bind_ok {A B} (m : M A) (f : A -> M B) s b s' :
  mbind m f s = Ok b s' -> exists a s1, m s = Ok a s1 /\ f a s1 = Ok b s'.
Proof. unfold mbind. destruct (m s); try discriminate. eauto. Qed.
Lemma bind_step {A B} (m : M A) (f : A -> M B) s a s1 :
  m s = Ok a s1 -> mbind m f s = f a s1.
Proof. unfold mbind. intros ->. reflexivity. Qed.
Lemma bind_err {A B} (m : M A) (f : A -> M B) s e s1 :
  m s = Err e s1 -> mbind m f s = Err e s1.
Proof. unfold mbind. intros ->. reflexivity. Qed.
Lemma ret_ok {A} (a b : A) s s' : mret a s = Ok b s' -> b = a /\ s' = s.
Proof. intros E. injection E as <- <-. auto. Qed.
Lemma catch_ok {A} (m : M A) s a s' : catch_type m s = Ok a s' <-> m s = Ok a s'.
Proof.
  unfold catch_type. destruct (m s) as [x t|e t|]; [tauto| |tauto].
  destruct e as [|[]|]; split; intros H; try discriminate.
Qed.
Lemma catch_err {A} (m : M A) s e s' :
  m s = Err e s' -> catch_type m s = Err (reported e) s'.
Proof.
  unfold catch_type. intros ->. destruct e as [|[]|]; reflexivity.
Qed.

Ltac bind_inv H :=
  let a := fresh "a" in let s := fresh "s" in let E := fresh "E" in
  apply bind_ok in H; destruct H as (a & s & E & H).

(** ** More fuel *)
Lemma more_rval n m e s r :
  (n <= m)%nat -> rval_tree (run n) e s = r -> r <> Fuel ->
  rval_tree (run m) e s = r.
Proof.
  intros L E F.
  pose proof (r_rval_tree le_fuel le_fuel_closed (run n) (run m) (run_le_fuel_le n m L) e s) as H.
  destruct H as [H|H]; congruence.
Qed.
Lemma more_eval n m e s r :
  (n <= m)%nat -> i_eval (run n) e s = r -> r <> Fuel -> i_eval (run m) e s = r.
Proof.
  intros L E F.
  destruct (re_eval _ _ _ (run_le_fuel_le n m L) e s) as [H|H]; congruence.
Qed.
Lemma more_stmt n m e s r :
  (n <= m)%nat -> i_stmt (run n) e s = r -> r <> Fuel -> i_stmt (run m) e s = r.
Proof.
  intros L E F.
  destruct (re_stmt _ _ _ (run_le_fuel_le n m L) e s) as [H|H]; congruence.
Qed.
Lemma more_op n m o l s r :
  (n <= m)%nat -> i_op (run n) o l s = r -> r <> Fuel -> i_op (run m) o l s = r.
Proof.
  intros L E F.
  destruct (re_op _ _ _ (run_le_fuel_le n m L) o l s) as [H|H]; congruence.
Qed.
Lemma more_call n m f l s r :
  (n <= m)%nat -> i_call (run n) f l s = r -> r <> Fuel -> i_call (run m) f l s = r.
Proof.
  intros L E F.
  destruct (re_call _ _ _ (run_le_fuel_le n m L) f l s) as [H|H]; congruence.
Qed.

Lemma gives_fun s e v s' w s'' : gives s e v s' -> gives s e w s'' -> w = v /\ s'' = s'.
Proof.
  intros [n E] [m F].
  apply (more_rval n (max n m)) in E; [|lia|discriminate].
  apply (more_rval m (max n m)) in F; [|lia|discriminate].
  rewrite E in F. injection F as -> ->. auto.
Qed.

(** ** Values of expressions *)
Definition evals (s : state) (e : tree hval) (x : xval) (s' : state) : Prop :=
  exists n, i_eval (run n) e s = Ok x s'.

Lemma rval_tree_eq R e :
  (forall o, e <> TOpr o) ->
  forall s, rval_tree R e s = (x <- i_eval R e;; rval_h x) s.
Proof.
  intros H s. unfold rval_tree, rval_arg_h, rval_arg, mbind.
  assert (G : forall x s1, match rval_x x s1 with
              | Ok a s' => rval_h a s' | Err er s' => Err er s' | Fuel => Fuel end
              = rval_h x s1).
  { intros [v|lv|o] s1; try reflexivity. unfold rval_x, mbind. cbn [rval_h].
    destruct (get_lval lv s1); reflexivity. }
  destruct e; try (exfalso; eapply H; reflexivity);
    match goal with |- context [i_eval R ?t s] =>
      destruct (i_eval R t s) as [x s1|er s1|] end; try reflexivity; apply G.
Qed.
Lemma rval_tree_ok R e s v s' :
  rval_tree R e s = Ok v s' ->
  exists x s1, i_eval R e s = Ok x s1 /\ rval_h x s1 = Ok v s'.
Proof.
  intros H. assert (N : forall o, e <> TOpr o).
  { intros o ->. discriminate. }
  rewrite (rval_tree_eq R e N) in H. bind_inv H. eauto.
Qed.
Lemma eval_not_opr n e s x s' : i_eval (run n) e s = Ok x s' -> forall o, e <> TOpr o.
Proof. intros E o ->. destruct n; discriminate. Qed.

Lemma gives_evals s e v s' :
  gives s e v s' <-> exists x s1, evals s e x s1 /\ rval_h x s1 = Ok v s'.
Proof.
  split.
  - intros [n E]. destruct (rval_tree_ok _ _ _ _ _ E) as (x & s1 & E1 & E2).
    exists x, s1. split; [exists n; exact E1|exact E2].
  - intros (x & s1 & [n E1] & E2). exists n.
    rewrite rval_tree_eq by (eapply eval_not_opr; exact E1).
    rewrite (bind_step _ _ _ _ _ E1). exact E2.
Qed.

Lemma fails_evals s e er s' :
  (forall o, e <> TOpr o) ->
  fails s e er s' <-> (exists n, i_eval (run n) e s = Err er s')
                      \/ exists x s1, evals s e x s1 /\ rval_h x s1 = Err er s'.
Proof.
  intros N. split.
  - intros [n E]. rewrite rval_tree_eq in E by exact N. unfold mbind in E.
    destruct (i_eval (run n) e s) as [x s1|er1 s1|] eqn:E1; [| |discriminate].
    + right. exists x, s1. split; [exists n; exact E1|exact E].
    + left. injection E as <- <-. eauto.
  - intros [[n E]|(x & s1 & [n E1] & E2)]; exists n; rewrite rval_tree_eq by exact N.
    + rewrite (bind_err _ _ _ _ _ E). reflexivity.
    + rewrite (bind_step _ _ _ _ _ E1). exact E2.
Qed.

(** An application is one call of [eval_op]. *)
Lemma eval_app_eq n o args s :
  i_eval (run (S (S n))) (TApp o args) s = eval_op (run n) o (map ATree args) s.
Proof. reflexivity. Qed.
Lemma evals_app s o args x s' :
  evals s (TApp o args) x s' <->
  exists n, eval_op (run n) o (map ATree args) s = Ok x s'.
Proof.
  split; intros [n E].
  - destruct n as [|[|n]]; [discriminate|discriminate|]. exists n. exact E.
  - exists (S (S n)). exact E.
Qed.

(** Operands that are evaluated but not read, no special treatment of Blocks
    and Lists. *)
Definition plain_vals (o : oper) : bool :=
  negb (o_assign o) && negb (o_map o) && negb (o_fold o) && negb (o_scan o)
  && negb (f_rvals (o_flags o)) && f_vals (o_flags o)
  && negb (f_in_lambda (o_flags o)) && negb (f_list_each (o_flags o))
  && negb (f_range_each (o_flags o)).

Ltac split_flags H :=
  repeat (apply andb_prop in H; destruct H as [H ?]);
  repeat match goal with A : negb _ = true |- _ => apply negb_true_iff in A end.

Lemma expands_none fl x :
  f_list_each fl = false -> f_range_each fl = false -> expands_x fl x = false.
Proof.
  intros L G. unfold expands_x. destruct x as [v| |]; try reflexivity.
  destruct v; rewrite ?L, ?G; reflexivity.
Qed.

Lemma prepare_vals R fl a s :
  f_rvals fl = false -> f_vals fl = true -> f_in_lambda fl = false ->
  f_list_each fl = false -> f_range_each fl = false ->
  prepare R fl a s = (x <- eval_arg R a;; mret (AVal x, false)) s.
Proof.
  intros E1 E2 E3 E4 E5. unfold prepare. rewrite E1, E2. cbn [orb]. unfold mbind.
  destruct (eval_arg R a s) as [x s1|e s1|]; try reflexivity.
  rewrite expands_none by assumption. rewrite E3. reflexivity.
Qed.

Lemma prepared_vals R fl l :
  f_rvals fl = false -> f_vals fl = true -> f_in_lambda fl = false ->
  f_list_each fl = false -> f_range_each fl = false ->
  forall s, mmap (prepare R fl) l s
  = (xs <- mmap (eval_arg R) l;; mret (map (fun x => (AVal x, false)) xs)) s.
Proof.
  intros E1 E2 E3 E4 E5. induction l as [|a l IH]; intros s; [reflexivity|].
  cbn [mmap]. unfold mbind in *. rewrite prepare_vals by assumption.
  unfold mbind. destruct (eval_arg R a s) as [x s1|e s1|]; try reflexivity.
  cbn [mret]. unfold mret. rewrite IH.
  destruct (mmap (eval_arg R) l s1) as [xs s2|e s2|]; reflexivity.
Qed.

Lemma apply_plain R o args :
  f_list_each (o_flags o) = false -> f_range_each (o_flags o) = false ->
  apply_x R o args = call_fun R (o_fun o) args.
Proof.
  intros L G. unfold apply_x.
  destruct args as [|a [|b [|c args]]]; try reflexivity.
  - destruct a as [t|[v| |]]; try reflexivity. rewrite expands_none by assumption.
    reflexivity.
  - destruct a as [t|[v| |]], b as [t'|[v'| |]]; try reflexivity;
      rewrite ?expands_none by assumption; reflexivity.
Qed.

Lemma eval_op_vals R o args s :
  plain_vals o = true ->
  eval_op R o args s
  = (xs <- mmap (eval_arg R) args;;
     catch_type (call_fun R (o_fun o) (map AVal xs))) s.
Proof.
  intros P. unfold plain_vals in P. split_flags P. unfold eval_op.
  repeat match goal with A : o_assign _ = _ |- _ => rewrite A; clear A
                       | A : o_map _ = _ |- _ => rewrite A; clear A
                       | A : o_fold _ = _ |- _ => rewrite A; clear A
                       | A : o_scan _ = _ |- _ => rewrite A; clear A end.
  unfold mbind. rewrite prepared_vals by assumption. unfold mbind.
  destruct (mmap (eval_arg R) args s) as [xs s1|e s1|]; try reflexivity.
  unfold mret. rewrite map_map. cbn [fst].
  assert (E : existsb snd (map (fun x : xval => (AVal x, false)) xs) = false).
  { clear. induction xs; auto. }
  rewrite E. rewrite apply_plain by assumption. reflexivity.
Qed.

(** Operands that are passed as they are. *)
Definition plain_trees (o : oper) : bool :=
  negb (o_assign o) && negb (o_map o) && negb (o_fold o) && negb (o_scan o)
  && negb (f_rvals (o_flags o)) && negb (f_vals (o_flags o))
  && negb (f_in_lambda (o_flags o)) && negb (f_list_each (o_flags o))
  && negb (f_range_each (o_flags o)).
Lemma eval_op_trees R o args s :
  plain_trees o = true ->
  eval_op R o args s = catch_type (call_fun R (o_fun o) args) s.
Proof.
  intros P. unfold plain_trees in P. split_flags P. unfold eval_op.
  repeat match goal with A : o_assign _ = _ |- _ => rewrite A; clear A
                       | A : o_map _ = _ |- _ => rewrite A; clear A
                       | A : o_fold _ = _ |- _ => rewrite A; clear A
                       | A : o_scan _ = _ |- _ => rewrite A; clear A end.
  unfold mbind.
  assert (E : mmap (prepare R (o_flags o)) args s = Ok (map (fun a => (a, false)) args) s).
  { assert (F1 : f_rvals (o_flags o) = false) by assumption.
    assert (F2 : f_vals (o_flags o) = false) by assumption.
    clear - F1 F2. revert s. induction args as [|a l IH]; intros s; [reflexivity|].
    cbn [mmap]. unfold mbind, prepare at 1. rewrite F1, F2. cbn [orb].
    unfold mret at 1. rewrite IH. reflexivity. }
  rewrite E.
  assert (E1 : existsb snd (map (fun a : arg => (a, false)) args) = false).
  { clear. induction args; auto. }
  rewrite E1, map_map. cbn [fst]. rewrite map_id. rewrite apply_plain by assumption.
  reflexivity.
Qed.

(** ** Names *)
Lemma contains_chars x t c : str_contains x t = true -> In c x -> In c t.
Proof.
  unfold str_contains. pose proof (str_find_spec x t) as F.
  destruct (str_find x t) as [n|]; [|discriminate]. intros _ I.
  destruct F as [(a & b & -> & _) _]. rewrite !in_app_iff. auto.
Qed.
Lemma history_iff x :
  (match x with 36%N :: 95%N :: rest => forallb (N.eqb 95) rest | _ => false end) = true
  <-> exists k, x = 36%N :: repeat 95%N (S k).
Proof.
  split.
  - destruct x as [|a [|b r]]; try discriminate.
    + destruct a as [|p]; [discriminate|].
      repeat (destruct p as [p|p|]; try discriminate).
    + intros H.
      assert (E : a = 36%N /\ b = 95%N /\ forallb (N.eqb 95) r = true).
      { destruct (N.eq_dec a 36) as [->|Na]; [destruct (N.eq_dec b 95) as [->|Nb]; [auto|]|];
          exfalso.
        - destruct b as [|p]; try discriminate.
          repeat (destruct p as [p|p|]; try discriminate; try congruence).
        - destruct a as [|p]; try discriminate.
          repeat (destruct p as [p|p|]; try discriminate; try congruence). }
      destruct E as (-> & -> & F). exists (length r). cbn [repeat]. do 2 f_equal.
      clear H. induction r as [|c r IH]; [reflexivity|]. cbn [forallb] in F.
      apply andb_prop in F. destruct F as [F1 F2]. apply N.eqb_eq in F1. subst c.
      cbn [length repeat]. f_equal. auto.
  - intros [k ->]. cbn [repeat]. induction k; [reflexivity|exact IHk].
Qed.
Lemma letter_range c : In c (s_ "abcdefg") -> (97 <= c <= 103)%N.
Proof. intros I. cbn in I. repeat destruct I as [<-|I]; try lia. Qed.

Lemma local_spec x : name_text x -> local_name x = true <-> is_local x.
Proof.
  intros N. unfold local_name, is_local. rewrite orb_true_iff, history_iff.
  apply or_iff_compat_r. split.
  - intros H. assert (A := fun c => contains_chars x _ c H).
    destruct N as [u Hu Fu Lu|c Hc Nj| |c Hc|c s Hc Fs|n Hn|c Hc].
    + destruct u as [|c u]; [congruence|]. exfalso.
      inversion Fu as [|? ? Uc]; subst. unfold is_upper in Uc.
      apply andb_prop in Uc. destruct Uc as [_ Uc]. apply N.leb_le in Uc.
      specialize (A c (or_introl eq_refl)). apply letter_range in A. lia.
    + exists c. split; [apply A; now left|reflexivity].
    + specialize (A _ (or_introl eq_refl)). apply letter_range in A. lia.
    + specialize (A _ (or_introl eq_refl)). apply letter_range in A. lia.
    + specialize (A _ (or_introl eq_refl)). apply letter_range in A. lia.
    + specialize (A _ (or_introl eq_refl)). apply letter_range in A. lia.
    + specialize (A _ (or_introl eq_refl)). apply letter_range in A. lia.
  - intros (c & I & ->). cbn in I. repeat destruct I as [<-|I]; try reflexivity.
    destruct I.
Qed.

Lemma special_false s x : ordinary s x -> special x = false.
Proof.
  intros (_ & Q & R & _). unfold special. apply orb_false_iff.
  split; apply not_true_is_false; rewrite str_eqb_eq; assumption.
Qed.

Lemma no_tao s x : ordinary s x -> three_letters x = true -> st_tao s = None.
Proof.
  intros (N & _ & _ & P) T. apply P. unfold three_letters in T.
  apply andb_prop in T. destruct T as [L A]. apply Nat.eqb_eq in L.
  rewrite forallb_forall in A.
  destruct N as [u Hu Fu [Lu|Lu]|c Hc Nj| |c Hc|c s0 Hc Fs|n Hn|c Hc]; try exact Lu;
    try discriminate; try lia;
    specialize (A _ (or_introl eq_refl)); discriminate.
Qed.

(** ** Reading *)
Lemma get_var_binding s x o :
  name_text x -> binding s x o -> get_var x s = Ok o s.
Proof.
  intros N B. unfold get_var. destruct B as [sc rest L E|L].
  - apply (local_spec x N) in L. rewrite L, E. reflexivity.
  - destruct (local_name x) eqn:E; [|reflexivity].
    exfalso. apply L. apply (local_spec x N). exact E.
Qed.
Lemma binding_get_var s x o :
  name_text x -> get_var x s = Ok o s -> binding s x o.
Proof.
  intros N. unfold get_var. destruct (local_name x) eqn:L.
  - destruct (st_scopes s) as [|sc rest] eqn:E; [discriminate|].
    intros H. injection H as <-. eapply binding_local; [|exact E].
    apply local_spec; assumption.
  - intros H. injection H as <-. apply binding_global.
    intros G. apply (local_spec x N) in G. congruence.
Qed.
Lemma binding_fun s x o o' : binding s x o -> binding s x o' -> o' = o.
Proof.
  intros B B'. destruct B as [sc rest L E|L], B' as [sc' rest' L' E'|L'];
    try contradiction; [|reflexivity]. rewrite E in E'. injection E' as <- <-. reflexivity.
Qed.
Lemma var_fun s x p q : var s x p -> var s x q -> p = q.
Proof.
  intros (o & B & D) (o' & B' & D'). rewrite (binding_fun _ _ _ _ B B') in D'.
  destruct o as [v|]; [|congruence]. eapply den_fun; eassumption.
Qed.

(** Evaluating an ordinary name gives its Lval. *)
Lemma eval_name n s x :
  ordinary s x -> i_eval (run (S n)) (name x) s = Ok (XL (LName x [] None)) s.
Proof.
  intros O.
  change (mbind (mk_lval x) (fun lv => mret (XL lv)) s = Ok (XL (LName x [] None)) s).
  unfold mk_lval. rewrite (special_false _ _ O). reflexivity.
Qed.

Lemma get_name_ok s x p :
  ordinary s x -> var s x p ->
  yields (get_lval (LName x [] None)) s
         (fun v s' => den (st_heap s') v p
                      /\ own (st_heap s') (length (st_heap s)) v).
Proof.
  intros O (o & B & D). cbn [get_lval].
  eapply yields_bind with (Q := fun _ s' => s' = s).
  { exists tt, s. split; [|split; [apply adv_refl|reflexivity]].
    destruct (three_letters x) eqn:T; [|reflexivity].
    unfold get_tao, mbind. rewrite (no_tao _ _ O T). reflexivity. }
  intros _ s1 A ->. rewrite (special_false _ _ O).
  eapply yields_bind with (Q := fun r s' => r = o /\ s' = s).
  { exists o, s. split; [apply get_var_binding; [apply O|exact B]|].
    split; [apply adv_refl|auto]. }
  intros r s1 A' [-> ->]. destruct o as [v|].
  - eapply yields_bind with (Q := fun r s' => r = Some v /\ s' = s).
    { exists (Some v), s. split; [reflexivity|]. split; [apply adv_refl|auto]. }
    intros r s1 A1 [-> ->].
    destruct (copy_ok v s p D) as (v' & t & E & D' & W). exists v', (grow t s).
    split; [exact E|]. split; [apply adv_grow|]. split; [exact D'|exact W].
  - subst p. eapply yields_bind; [apply yields_warn|]. intros _ s1 A1 _.
    apply yields_ret. split; [constructor|]. intros l Pl. inversion Pl.
Qed.

Lemma adv_only_adds s s' : adv s s' -> only_adds s s'.
Proof.
  intros (t & d & ->). unfold only_adds. cbn. repeat split; try reflexivity; eauto.
Qed.
Lemma adv_binding s s' x o : adv s s' -> binding s x o -> binding s' x o.
Proof.
  intros A [sc rest L E|L].
  - eapply binding_local; [exact L|]. rewrite (adv_scopes _ _ A). exact E.
  - rewrite <- (adv_vars _ _ A). apply binding_global. exact L.
Qed.
Lemma adv_var s s' x p : adv s s' -> var s x p -> var s' x p.
Proof.
  intros A (o & B & D). exists o. split; [eapply adv_binding; eassumption|].
  destruct o; [eapply adv_den; eassumption|exact D].
Qed.
Lemma adv_ordinary s s' x : adv s s' -> ordinary s x -> ordinary s' x.
Proof.
  intros A (N & Q & R & P). repeat split; auto. rewrite (adv_tao _ _ A). exact P.
Qed.

Theorem read_name s x p :
  ordinary s x -> var s x p ->
  exists v s', gives s (name x) v s' /\ den (st_heap s') v p /\ only_adds s s'
               /\ own (st_heap s') (length (st_heap s)) v.
Proof.
  intros O V. destruct (get_name_ok s x p O V) as (v & s' & E & A & D & W).
  exists v, s'. split; [|split; [exact D|split; [apply adv_only_adds; exact A|exact W]]].
  apply gives_evals. exists (XL (LName x [] None)), s.
  split; [exists 1%nat; apply eval_name; exact O|exact E].
Qed.

(** ** Assigning *)
Lemma lookup_same e x v : lookup ((x, v) :: e) x = Some v.
Proof. cbn [lookup]. rewrite str_eqb_refl. reflexivity. Qed.
Lemma lookup_other e x y v : y <> x -> lookup ((x, v) :: e) y = lookup e y.
Proof.
  intros N. cbn [lookup]. destruct (str_eqb y x) eqn:E; [|reflexivity].
  apply str_eqb_eq in E. congruence.
Qed.

Lemma set_var_ok x v s s' :
  name_text x -> set_var x v s = Ok tt s' <-> rebound x v s s'.
Proof.
  intros N. unfold set_var. split.
  - destruct (local_name x) eqn:L.
    + destruct (st_scopes s) as [|sc rest] eqn:E; [discriminate|]. intros H.
      injection H as <-. eapply rebound_local; [|exact E]. apply local_spec; assumption.
    + intros H. injection H as <-. apply rebound_global.
      intros G. apply (local_spec x N) in G. congruence.
  - intros [sc rest L E|L].
    + apply (local_spec x N) in L. rewrite L, E. reflexivity.
    + destruct (local_name x) eqn:E; [|reflexivity].
      exfalso. apply L. apply (local_spec x N). exact E.
Qed.
Lemma rebound_heap x v s s' : rebound x v s s' -> st_heap s' = st_heap s.
Proof. intros []; reflexivity. Qed.
Lemma rebound_tao x v s s' : rebound x v s s' -> st_tao s' = st_tao s.
Proof. intros []; reflexivity. Qed.
Lemma rebound_binding x v s s' : rebound x v s s' -> binding s' x (Some v).
Proof.
  intros [sc rest L E|L].
  - rewrite <- (lookup_same (sc_vars sc) x v).
    apply (binding_local _ _ (mkscope (sc_fun sc) ((x, v) :: sc_vars sc)) rest);
      [exact L|reflexivity].
  - rewrite <- (lookup_same (st_vars s) x v). apply binding_global. exact L.
Qed.
Lemma rebound_other x v s s' y o :
  rebound x v s s' -> y <> x -> binding s y o -> binding s' y o.
Proof.
  intros R N B. destruct R as [sc rest L E|L], B as [sc' rest' L' E'|L'].
  - rewrite E in E'. injection E' as <- <-. rewrite <- (lookup_other _ x y v N).
    apply (binding_local _ _ (mkscope (sc_fun sc) ((x, v) :: sc_vars sc)) rest);
      [exact L'|reflexivity].
  - change (st_vars s) with (st_vars (set_scopes
      (mkscope (sc_fun sc) ((x, v) :: sc_vars sc) :: rest) (st_depth s) s)).
    apply binding_global. exact L'.
  - eapply binding_local; [exact L'|exact E'].
  - rewrite <- (lookup_other _ x y v N). apply binding_global. exact L'.
Qed.
Lemma rebound_var x v s s' p : rebound x v s s' -> den (st_heap s) v p -> var s' x p.
Proof.
  intros R D. exists (Some v). split; [eapply rebound_binding; eassumption|].
  rewrite (rebound_heap _ _ _ _ R). exact D.
Qed.
Lemma rebound_other_var x v s s' y p :
  rebound x v s s' -> y <> x -> var s y p -> var s' y p.
Proof.
  intros R N (o & B & D). exists o. split; [eapply rebound_other; eassumption|].
  destruct o; [|exact D]. rewrite (rebound_heap _ _ _ _ R). exact D.
Qed.

Lemma assign_name_ok s x v s' :
  ordinary s x -> assign (LName x [] None) v s = Ok tt s' <-> rebound x v s s'.
Proof.
  intros O. cbn [assign]. unfold assign_name. rewrite (special_false _ _ O).
  cbn [rev]. apply set_var_ok. apply O.
Qed.

(** The expression [x:e]. *)
Definition op_assign : oper :=
  match op_by_arity 2 (s_ ":") with Some o => o | None => op_chain end.
Lemma app_assign a b : app ":" [a; b] = TApp op_assign [a; b].
Proof. reflexivity. Qed.

(** Settings that evaluation leaves alone. *)
Lemma evals_io s e x s' : evals s e x s' -> io_rel true s s'.
Proof.
  intros [n E]. pose proof (re_eval _ _ _ (run_io n) e s) as H. rewrite E in H.
  exact H.
Qed.
Lemma rval_h_io x s v s' : rval_h x s = Ok v s' -> io_rel true s s'.
Proof.
  intros E. pose proof (r_rval_h _ io_closed x s) as H. unfold steps in H.
  rewrite E in H. exact H.
Qed.
Lemma gives_io s e v s' : gives s e v s' -> io_rel true s s'.
Proof.
  intros G. apply gives_evals in G. destruct G as (x & s1 & E1 & E2).
  eapply io_trans; [eapply evals_io; exact E1|eapply rval_h_io; exact E2].
Qed.
Lemma io_ordinary b s s' x : io_rel b s s' -> ordinary s x -> ordinary s' x.
Proof.
  intros (_ & _ & _ & T & _) (N & Q & R & P). repeat split; auto. rewrite T. exact P.
Qed.
Lemma rebound_ordinary x v s s' y : rebound x v s s' -> ordinary s y -> ordinary s' y.
Proof.
  intros H (N & Q & R & P). repeat split; auto. rewrite (rebound_tao _ _ _ _ H). exact P.
Qed.

Lemma mmap1_ok {A B} (f : A -> M B) a s l s' :
  mmap f [a] s = Ok l s' <-> exists x, f a s = Ok x s' /\ l = [x].
Proof.
  cbn [mmap]. unfold mbind, mret. split.
  - destruct (f a s) as [x s1|e s1|]; try discriminate. intros E.
    injection E as <- <-. eauto.
  - intros (x & -> & ->). reflexivity.
Qed.
Lemma mmap2_ok {A B} (f : A -> M B) a b s l s' :
  mmap f [a; b] s = Ok l s' <->
  exists x y s1, f a s = Ok x s1 /\ f b s1 = Ok y s' /\ l = [x; y].
Proof.
  cbn [mmap]. unfold mbind, mret. split.
  - destruct (f a s) as [x s1|e s1|]; try discriminate.
    destruct (f b s1) as [y s2|e s2|] eqn:E; try discriminate. intros F.
    injection F as <- <-. eauto 10.
  - intros (x & y & s1 & -> & -> & ->). reflexivity.
Qed.

(** A binary operator on evaluated operands. *)
Lemma evals_vals2 s o a b r s' :
  plain_vals o = true ->
  evals s (TApp o [a; b]) r s' <->
  exists xa xb s1 s2, evals s a xa s1 /\ evals s1 b xb s2 /\
    exists n, call_fun (run n) (o_fun o) [AVal xa; AVal xb] s2 = Ok r s'.
Proof.
  intros P. rewrite evals_app. split.
  - intros [n E]. rewrite eval_op_vals in E by exact P.
    bind_inv E. apply (proj1 (catch_ok _ _ _ _)) in E. cbn [map] in E0.
    apply mmap2_ok in E0. destruct E0 as (xa & xb & s1 & Ea & Eb & ->).
    exists xa, xb, s1, s0. split; [exists n; exact Ea|]. split; [exists n; exact Eb|].
    exists n. exact E.
  - intros (xa & xb & s1 & s2 & [n Ea] & [m Eb] & [k E]).
    exists (max k (max n m)). rewrite eval_op_vals by exact P. cbn [map].
    rewrite (bind_step _ _ _ [xa; xb] s2).
    + apply (proj2 (catch_ok _ _ _ _)).
      pose proof (r_call_fun le_fuel le_fuel_closed _ _
                    (run_le_fuel_le k (max k (max n m)) ltac:(lia))
                    (o_fun o) (map AVal [xa; xb]) s2) as H.
      destruct H as [H|H]; cbn [map] in *; congruence.
    + apply mmap2_ok. exists xa, xb, s1. cbn [eval_arg].
      split; [apply (more_eval n); [lia|exact Ea|discriminate]|].
      split; [apply (more_eval m); [lia|exact Eb|discriminate]|reflexivity].
Qed.
Lemma evals_vals1 s o a r s' :
  plain_vals o = true ->
  evals s (TApp o [a]) r s' <->
  exists xa s1, evals s a xa s1 /\
    exists n, call_fun (run n) (o_fun o) [AVal xa] s1 = Ok r s'.
Proof.
  intros P. rewrite evals_app. split.
  - intros [n E]. rewrite eval_op_vals in E by exact P.
    bind_inv E. apply (proj1 (catch_ok _ _ _ _)) in E. cbn [map] in E0.
    apply mmap1_ok in E0. destruct E0 as (xa & Ea & ->).
    exists xa, s0. split; [exists n; exact Ea|]. exists n. exact E.
  - intros (xa & s1 & [n Ea] & [k E]).
    exists (max k n). rewrite eval_op_vals by exact P. cbn [map].
    rewrite (bind_step _ _ _ [xa] s1).
    + apply (proj2 (catch_ok _ _ _ _)).
      pose proof (r_call_fun le_fuel le_fuel_closed _ _
                    (run_le_fuel_le k (max k n) ltac:(lia))
                    (o_fun o) (map AVal [xa]) s1) as H.
      destruct H as [H|H]; cbn [map] in *; congruence.
    + apply mmap1_ok. exists xa. cbn [eval_arg].
      split; [apply (more_eval n); [lia|exact Ea|discriminate]|reflexivity].
Qed.

Lemma evals_name s x r s' :
  ordinary s x -> evals s (name x) r s' <-> r = XL (LName x [] None) /\ s' = s.
Proof.
  intros O. split.
  - intros [[|n] E]; [discriminate|]. rewrite eval_name in E by exact O.
    injection E as <- <-. auto.
  - intros [-> ->]. exists 1%nat. apply eval_name. exact O.
Qed.

Lemma evals_assign s x e r s' :
  ordinary s x ->
  evals s (app ":" [name x; e]) r s' <->
  r = XL (LName x [] None) /\
  exists v s1, gives s e v s1 /\ rebound x v s1 s'.
Proof.
  intros O. rewrite app_assign, evals_vals2 by reflexivity. split.
  - intros (xa & xb & s1 & s2 & Ea & Eb & n & E).
    apply evals_name in Ea; [|exact O]. destruct Ea as [-> ->].
    change (ASSIGN (XL (LName x [] None)) xb s2 = Ok r s') in E. unfold ASSIGN in E.
    bind_inv E. bind_inv E. apply ret_ok in E. destruct E as [-> ->]. split; [reflexivity|].
    assert (G : gives s e a s0) by (apply gives_evals; eauto).
    exists a, s0. split; [exact G|]. destruct a0.
    apply assign_name_ok; [|assumption]. eapply io_ordinary; [eapply gives_io; exact G|exact O].
  - intros (-> & v & s1 & G & Rb). pose proof G as G'.
    apply gives_evals in G. destruct G as (xb & s2 & Eb & E2).
    exists (XL (LName x [] None)), xb, s, s2.
    split; [apply evals_name; auto|]. split; [exact Eb|]. exists 0%nat.
    change (ASSIGN (XL (LName x [] None)) xb s2 = Ok (XL (LName x [] None)) s').
    unfold ASSIGN. rewrite (bind_step _ _ _ _ _ E2).
    rewrite (bind_step _ _ _ tt s'); [reflexivity|].
    apply assign_name_ok; [|exact Rb]. eapply io_ordinary; [eapply gives_io; exact G'|exact O].
Qed.

(** The variable and its value after [x:e]. *)
Theorem assign_expr s x e w s' :
  ordinary s x -> gives s (app ":" [name x; e]) w s' ->
  exists v s1, gives s e v s1 /\
    (forall p, den (st_heap s1) v p -> var s' x p /\ den (st_heap s') w p) /\
    (forall y p q, den (st_heap s1) v p -> y <> x -> var s1 y q -> var s' y q).
Proof.
  intros O G. apply gives_evals in G. destruct G as (r & s2 & E & E2).
  apply (evals_assign _ _ _ _ _ O) in E. destruct E as (-> & v & s1 & G & Rb).
  exists v, s1. split; [exact G|].
  assert (O2 : ordinary s2 x).
  { eapply rebound_ordinary; [exact Rb|]. eapply io_ordinary; [eapply gives_io; exact G|exact O]. }
  assert (K : forall p, den (st_heap s1) v p -> adv s2 s' /\ den (st_heap s') w p).
  { intros p D. pose proof (get_name_ok s2 x p O2 (rebound_var _ _ _ _ _ Rb D)) as Y.
    destruct Y as (w' & s3 & E3 & A & D' & _). cbn [rval_h] in E2. rewrite E3 in E2.
    injection E2 as -> ->. auto. }
  split.
  - intros p D. destruct (K p D) as [A D']. split; [|exact D'].
    eapply adv_var; [exact A|]. eapply rebound_var; eassumption.
  - intros y p q D N V. destruct (K p D) as [A _]. eapply adv_var; [exact A|].
    eapply rebound_other_var; eassumption.
Qed.

(** [x:e] always succeeds if [e] does and there is a current scope. *)
Theorem assign_ends s x e v s1 p :
  ordinary s x -> gives s e v s1 -> den (st_heap s1) v p -> st_scopes s1 <> [] ->
  exists w s', gives s (app ":" [name x; e]) w s'.
Proof.
  intros O G D NS.
  assert (O1 : ordinary s1 x) by (eapply io_ordinary; [eapply gives_io; exact G|exact O]).
  assert (X : exists s2, rebound x v s1 s2).
  { destruct (local_name x) eqn:L.
    - destruct (st_scopes s1) as [|sc rest] eqn:E; [congruence|].
      eexists. eapply rebound_local; [apply local_spec; [apply O|exact L]|exact E].
    - eexists. apply rebound_global. intros H. apply local_spec in H; [congruence|apply O]. }
  destruct X as [s2 Rb].
  destruct (get_name_ok s2 x p (rebound_ordinary _ _ _ _ _ Rb O1)
              (rebound_var _ _ _ _ _ Rb D)) as (w & s3 & E & A & _).
  exists w, s3. apply gives_evals. exists (XL (LName x [] None)), s2.
  split; [|exact E]. apply evals_assign; [exact O|]. eauto.
Qed.

(** ** Assigning several variables *)

(** More objects, and the variables [xs] possibly bound anew. *)
Definition moved (xs : list str) (s s' : state) : Prop :=
  (exists t, st_heap s' = st_heap s ++ t) /\ st_tao s' = st_tao s /\
  (st_scopes s <> [] -> st_scopes s' <> []) /\
  forall y o, ~ In y xs -> binding s y o -> binding s' y o.

Lemma moved_refl xs s : moved xs s s.
Proof.
  repeat split; auto. exists []. symmetry. apply app_nil_r.
Qed.
Lemma moved_trans xs s1 s2 s3 : moved xs s1 s2 -> moved xs s2 s3 -> moved xs s1 s3.
Proof.
  intros ([t1 A1] & B1 & C1 & D1) ([t2 A2] & B2 & C2 & D2). repeat split.
  - exists (t1 ++ t2). rewrite A2, A1, app_assoc. reflexivity.
  - congruence.
  - auto.
  - auto.
Qed.
Lemma moved_incl xs ys s s' : incl xs ys -> moved xs s s' -> moved ys s s'.
Proof. intros I (A & B & C & D). repeat split; auto. Qed.
Lemma adv_moved xs s s' : adv s s' -> moved xs s s'.
Proof.
  intros A. repeat split.
  - destruct A as (t & d & ->). exists t. reflexivity.
  - apply adv_tao. exact A.
  - rewrite (adv_scopes _ _ A). auto.
  - intros y o _ B. eapply adv_binding; eassumption.
Qed.
Lemma rebound_moved x v xs s s' : In x xs -> rebound x v s s' -> moved xs s s'.
Proof.
  intros I R. repeat split.
  - exists []. rewrite app_nil_r. eapply rebound_heap; exact R.
  - eapply rebound_tao; exact R.
  - destruct R; intros; try discriminate. assumption.
  - intros y o N B. eapply rebound_other; [exact R| |exact B]. intros ->. auto.
Qed.
Lemma moved_den xs s s' v p : moved xs s s' -> den (st_heap s) v p -> den (st_heap s') v p.
Proof. intros ([t ->] & _) D. apply den_app. exact D. Qed.
Lemma moved_dens xs s s' v p : moved xs s s' -> dens (st_heap s) v p -> dens (st_heap s') v p.
Proof. intros ([t ->] & _) D. apply dens_app. exact D. Qed.
Lemma moved_var xs s s' y p : moved xs s s' -> ~ In y xs -> var s y p -> var s' y p.
Proof.
  intros Mv N (o & B & D). exists o. split; [apply Mv; assumption|].
  destruct o; [eapply moved_den; eassumption|exact D].
Qed.
Lemma moved_ordinary xs s s' y : moved xs s s' -> ordinary s y -> ordinary s' y.
Proof.
  intros (_ & T & _) (N & Q & R & P). repeat split; auto. rewrite T. exact P.
Qed.

Lemma assign_fresh x v s :
  ordinary s x -> st_scopes s <> [] ->
  exists s', assign (LName x [] None) v s = Ok tt s' /\ rebound x v s s'.
Proof.
  intros O NS.
  assert (X : exists s2, rebound x v s s2).
  { destruct (local_name x) eqn:L.
    - destruct (st_scopes s) as [|sc rest] eqn:E; [congruence|].
      eexists. eapply rebound_local; [apply local_spec; [apply O|exact L]|exact E].
    - eexists. apply rebound_global. intros H. apply local_spec in H; [congruence|apply O]. }
  destruct X as [s2 Rb]. exists s2. split; [|exact Rb]. apply assign_name_ok; assumption.
Qed.

Fixpoint assign_all (items : list lval) (vals : list hval) : M unit :=
  match items, vals with
  | [], [] => mret tt
  | [], _ :: _ => mwarn "assign: unused values"
  | lv :: items', [] =>
    mwarn "assign: missing value";; assign lv HNil;; assign_all items' []
  | lv :: items', v :: vals' => assign lv v;; assign_all items' vals'
  end.
Lemma assign_list_eq items sl v :
  h_block v = false ->
  assign (LList items sl) v
  = (vals <- h_take (S (length items)) v;; assign_all items vals).
Proof.
  intros B. destruct v; try discriminate; reflexivity.
Qed.

Definition lname (x : str) : lval := LName x [] None.

Lemma assign_all_ok xs : forall vals ps s,
  NoDup xs -> Forall (ordinary s) xs -> st_scopes s <> [] -> dens (st_heap s) vals ps ->
  exists s', assign_all (map lname xs) vals s = Ok tt s' /\ moved xs s s' /\
    forall i x, nth_error xs i = Some x -> var s' x (or_nil (nth_error ps i)).
Proof.
  induction xs as [|x xs IH]; intros vals ps s ND OS NS D; cbn [map].
  - destruct vals as [|v vals]; cbn [assign_all].
    + exists s. split; [reflexivity|]. split; [apply moved_refl|].
      intros [|i] x E; discriminate.
    + destruct (yields_warn "assign: unused values" s) as ([] & s' & E & A & _).
      exists s'. split; [exact E|]. split; [apply adv_moved; exact A|].
      intros [|i] x E'; discriminate.
  - inversion ND as [|? ? Nx ND']; subst. inversion OS as [|? ? Ox OS']; subst.
    assert (G : forall s0 v p vals' ps', adv s s0 -> den (st_heap s0) v p ->
      dens (st_heap s0) vals' ps' ->
      exists s', (assign (lname x) v;; assign_all (map lname xs) vals') s0 = Ok tt s' /\
        moved (x :: xs) s0 s' /\ var s' x p /\
        forall i y, nth_error xs i = Some y -> var s' y (or_nil (nth_error ps' i))).
    { intros s0 v p vals' ps' A0 Dv Ds.
      destruct (assign_fresh x v s0) as (s1 & E1 & R1).
      { eapply adv_ordinary; eassumption. }
      { rewrite (adv_scopes _ _ A0). exact NS. }
      assert (M1 : moved [x] s0 s1) by (eapply rebound_moved; [left; reflexivity|exact R1]).
      destruct (IH vals' ps' s1 ND') as (s2 & E2 & M2 & V2).
      - eapply Forall_impl; [|exact OS']. intros y Oy.
        eapply moved_ordinary; [exact M1|]. eapply adv_ordinary; eassumption.
      - apply M1. rewrite (adv_scopes _ _ A0). exact NS.
      - eapply moved_dens; eassumption.
      - exists s2. unfold lname at 1. rewrite (bind_step _ _ _ _ _ E1). split; [exact E2|].
        split; [eapply moved_trans; [eapply moved_incl; [|exact M1]
                                    |eapply moved_incl; [|exact M2]]|].
        + intros z [<-|[]]. now left.
        + intros z I. now right.
        + split; [|exact V2]. eapply moved_var; [exact M2|exact Nx|].
          eapply rebound_var; eassumption. }
    destruct vals as [|v vals]; cbn [assign_all].
    + inversion D; subst.
      destruct (yields_warn "assign: missing value" s) as ([] & s0 & E & A & _).
      destruct (G s0 HNil PNil [] [] A) as (s' & E' & Mv & Vx & Vi);
        [constructor|constructor|].
      exists s'. rewrite (bind_step _ _ _ _ _ E). split; [exact E'|].
      split; [eapply moved_trans; [apply adv_moved; exact A|exact Mv]|].
      intros [|i] y Ey; cbn [nth_error] in *.
      * injection Ey as <-. exact Vx.
      * specialize (Vi i y Ey). destruct i; exact Vi.
    + inversion D as [|? p ? ps' Dv Ds]; subst.
      destruct (G s v p vals ps' (adv_refl s) Dv Ds) as (s' & E' & Mv & Vx & Vi).
      exists s'. split; [exact E'|]. split; [exact Mv|].
      intros [|i] y Ey; cbn [nth_error] in *.
      * injection Ey as <-. exact Vx.
      * exact (Vi i y Ey).
Qed.

Lemma take_items v p f n s :
  den (st_heap s) v p -> items_of p f ->
  yields (h_take n v) s (fun vs s' => exists ps, dens (st_heap s') vs ps /\
    forall i, (i < n)%nat -> nth_error ps i = f i).
Proof.
  intros D I. destruct I as [p l E|lo|].
  - assert (T : h_take n v = (items <- h_iter v;; mret (firstn n items))).
    { destruct E; inversion D; subst; reflexivity. }
    rewrite T. eapply yields_bind; [eapply yields_iter; [exact D|apply elems_p_iter; exact E]|].
    intros vs s' A Ds. apply yields_ret. exists (firstn n l).
    split; [apply dens_firstn; exact Ds|].
    intros i L. clear - L. revert i L. revert l. induction n as [|n IH]; intros l i L; [lia|].
    destruct l as [|x l]; [destruct i; reflexivity|]. destruct i; [reflexivity|].
    cbn. apply IH. lia.
  - inversion D; subst. cbn [h_take]. eapply yields_weaken; [apply yields_fresh_all|].
    intros vs s' A Ds. eexists. split; [exact Ds|]. intros i L.
    rewrite zseq_seq. rewrite nth_error_map.
    assert (E : nth_error (seq 0 n) i = Some i).
    { rewrite nth_error_nth' with (d := 0%nat) by (rewrite seq_length; exact L).
      rewrite seq_nth by exact L. reflexivity. }
    rewrite E. reflexivity.
  - inversion D; subst. cbn [h_take h_iter]. apply yields_ret. exists [].
    split; [destruct n; constructor|]. intros i _. destruct i; reflexivity.
Qed.

Lemma items_not_block h v p f : den h v p -> items_of p f -> h_block v = false.
Proof. intros D I. destruct I as [p l E| |]; [destruct E|..]; inversion D; reflexivity. Qed.

Lemma eval_names n s xs :
  Forall (ordinary s) xs ->
  mmap (eval_arg (run (S n))) (map ATree (map name xs)) s
  = Ok (map (fun x => XL (lname x)) xs) s.
Proof.
  induction 1 as [|x xs O OS IH]; [reflexivity|]. cbn [map mmap eval_arg].
  rewrite (bind_step _ _ _ _ _ (eval_name n s x O)).
  rewrite (bind_step _ _ _ _ _ IH). reflexivity.
Qed.
Lemma mmap_eval_vals R xs s : mmap (eval_arg R) (map AVal xs) s = Ok xs s.
Proof.
  induction xs as [|x xs IH]; [reflexivity|]. cbn [map mmap eval_arg].
  unfold mbind, mret in *. rewrite IH. reflexivity.
Qed.
Lemma all_lvals_names xs : all_lvals (map (fun x => XL (lname x)) xs) = Some (map lname xs).
Proof. induction xs as [|x xs IH]; [reflexivity|]. cbn. rewrite IH. reflexivity. Qed.

Lemma evals_display_names s xs :
  xs <> [] -> Forall (ordinary s) xs ->
  evals s (display (map name xs)) (XL (LList (map lname xs) [])) s.
Proof.
  intros NE OS. apply evals_app. exists 1%nat. rewrite eval_op_vals by reflexivity.
  rewrite (bind_step _ _ _ _ _ (eval_names 0 s xs OS)).
  apply (proj2 (catch_ok _ _ _ _)). cbn [call_fun o_fun op_enlist mkop].
  change ((xs0 <- mmap (eval_arg (run 1)) (map AVal (map (fun x => XL (lname x)) xs));; LIST xs0) s
          = Ok (XL (LList (map lname xs) [])) s).
  rewrite (bind_step _ _ _ _ _ (mmap_eval_vals _ _ _)). unfold LIST.
  destruct xs as [|x xs]; [congruence|]. cbn [map all_lvals].
  rewrite all_lvals_names. reflexivity.
Qed.
Lemma evals_fun s e x s' y s'' : evals s e x s' -> evals s e y s'' -> y = x /\ s'' = s'.
Proof.
  intros [n E] [m F].
  apply (more_eval n (max n m)) in E; [|lia|discriminate].
  apply (more_eval m (max n m)) in F; [|lia|discriminate].
  rewrite E in F. injection F as -> ->. auto.
Qed.

Lemma get_names_ok s xs ps :
  Forall (ordinary s) xs -> Forall2 (var s) xs ps ->
  forall s0, adv s s0 ->
  yields (mmap get_lval (map lname xs)) s0 (fun vs s' => dens (st_heap s') vs ps).
Proof.
  intros OS F. induction F as [|x p xs ps V F IH]; intros s0 A0; cbn [map mmap].
  - apply yields_ret. constructor.
  - inversion OS; subst. eapply yields_bind.
    + apply get_name_ok; [eapply adv_ordinary; eassumption|eapply adv_var; eassumption].
    + intros v s1 A1 [D _]. eapply yields_bind; [apply IH; [assumption|eapply adv_trans; eassumption]|].
      intros vs s2 A2 Ds. apply yields_ret. constructor; [eapply adv_den; eassumption|exact Ds].
Qed.

(** [[x1 ... xn]:e] *)
Theorem assign_names s xs e v s1 p f :
  xs <> [] -> NoDup xs -> Forall (ordinary s) xs -> st_scopes s1 <> [] ->
  gives s e v s1 -> den (st_heap s1) v p -> items_of p f ->
  exists w s', gives s (app ":" [display (map name xs); e]) w s' /\
    (forall i x, nth_error xs i = Some x -> var s' x (or_nil (f i))) /\
    (forall y q, ~ In y xs -> var s1 y q -> var s' y q).
Proof.
  intros NE ND OS NS G D I.
  assert (OS1 : Forall (ordinary s1) xs).
  { eapply Forall_impl; [|exact OS]. intros y. exact (io_ordinary _ _ _ _ (gives_io _ _ _ _ G)). }
  destruct (take_items v p f (S (length xs)) s1 D I) as (vs & s2 & E2 & A2 & ps & Ds & Ns).
  destruct (assign_all_ok xs vs ps s2 ND) as (s3 & E3 & M3 & V3).
  { eapply Forall_impl; [|exact OS1]. intros y. apply adv_ordinary. exact A2. }
  { rewrite (adv_scopes _ _ A2). exact NS. }
  { exact Ds. }
  assert (V : forall i x, nth_error xs i = Some x -> var s3 x (or_nil (f i))).
  { intros i x Ex. rewrite <- Ns.
    - apply V3. exact Ex.
    - assert (i < length xs)%nat by (apply nth_error_Some; congruence). lia. }
  assert (OS3 : Forall (ordinary s3) xs).
  { eapply Forall_impl; [|exact OS1]. intros y Oy. eapply moved_ordinary; [exact M3|].
    eapply adv_ordinary; eassumption. }
  assert (F : exists qs, Forall2 (var s3) xs qs).
  { clear - V. revert f V. induction xs as [|x xs IH]; intros f V; [exists []; constructor|].
    destruct (IH (fun i => f (S i))) as [qs F]; [intros i y E; exact (V (S i) y E)|].
    exists (or_nil (f 0%nat) :: qs). constructor; [apply V; reflexivity|exact F]. }
  destruct F as [qs F].
  destruct (get_names_ok s3 xs qs OS3 F s3 (adv_refl _)) as (ws & s4 & E4 & A4 & D4).
  destruct (new_list_ok ws s4 qs D4) as (w & t & E5 & _).
  exists w, (grow t s4).
  assert (A5 : adv s3 (grow t s4)) by (eapply adv_trans; [exact A4|apply adv_grow]).
  split; [|split].
  - apply gives_evals. exists (XL (LList (map lname xs) [])), s3. split.
    + rewrite app_assign. apply evals_vals2; [reflexivity|].
      apply gives_evals in G. destruct G as (x & s0 & Ee & Er).
      exists (XL (LList (map lname xs) [])), x, s, s0.
      split; [apply evals_display_names; assumption|]. split; [exact Ee|]. exists 0%nat.
      change (ASSIGN (XL (LList (map lname xs) [])) x s0
              = Ok (XL (LList (map lname xs) [])) s3).
      unfold ASSIGN. rewrite (bind_step _ _ _ _ _ Er).
      rewrite assign_list_eq by (eapply items_not_block; eassumption).
      rewrite map_length.
      rewrite (bind_step _ _ _ tt s3); [reflexivity|].
      rewrite (bind_step _ _ _ _ _ E2). exact E3.
    + cbn [rval_h get_lval]. rewrite (bind_step _ _ _ _ _ E4). exact E5.
  - intros i x Ex. eapply adv_var; [exact A5|]. apply V. exact Ex.
  - intros y q N Vy. eapply adv_var; [exact A5|]. eapply moved_var; [exact M3|exact N|].
    eapply adv_var; eassumption.
Qed.

(** The value of a list of names is the List of their values. *)
Lemma gives_names s xs ps :
  xs <> [] -> Forall (ordinary s) xs -> Forall2 (var s) xs ps ->
  exists v s', gives s (display (map name xs)) v s' /\ adv s s' /\
               den (st_heap s') v (PList ps).
Proof.
  intros NE OS F.
  destruct (get_names_ok s xs ps OS F s (adv_refl _)) as (ws & s4 & E4 & A4 & D4).
  destruct (new_list_ok ws s4 ps D4) as (w & t & E5 & D5 & _).
  exists w, (grow t s4). split; [|split].
  - apply gives_evals. exists (XL (LList (map lname xs) [])), s.
    split; [apply evals_display_names; assumption|].
    cbn [rval_h get_lval]. rewrite (bind_step _ _ _ _ _ E4). exact E5.
  - eapply adv_trans; [exact A4|apply adv_grow].
  - exact D5.
Qed.

(** Swapping. *)
Definition op_swap : oper :=
  match op_by_arity 2 (s_ "::") with Some o => o | None => op_chain end.
Theorem swap_names s x y p q :
  x <> y -> ordinary s x -> ordinary s y -> st_scopes s <> [] ->
  var s x p -> var s y q ->
  exists w s', gives s (app "::" [name x; name y]) w s' /\ den (st_heap s') w q /\
    var s' x q /\ var s' y p /\
    (forall z r, z <> x -> z <> y -> var s z r -> var s' z r).
Proof.
  intros N Ox Oy NS Vx Vy.
  destruct (get_name_ok s x p Ox Vx) as (va & s1 & E1 & A1 & D1 & _).
  destruct (get_name_ok s1 y q) as (vb & s2 & E2 & A2 & D2 & _);
    [eapply adv_ordinary; eassumption|eapply adv_var; eassumption|].
  assert (A12 : adv s s2) by (eapply adv_trans; eassumption).
  destruct (assign_fresh x vb s2) as (s3 & E3 & R3);
    [exact (adv_ordinary _ _ _ A12 Ox)|rewrite (adv_scopes _ _ A12); exact NS|].
  assert (M3 : moved [x] s2 s3) by (eapply rebound_moved; [left; reflexivity|exact R3]).
  destruct (assign_fresh y va s3) as (s4 & E4 & R4);
    [eapply moved_ordinary; [exact M3|exact (adv_ordinary _ _ _ A12 Oy)]
    |apply M3; rewrite (adv_scopes _ _ A12); exact NS|].
  assert (M4 : moved [y] s3 s4) by (eapply rebound_moved; [left; reflexivity|exact R4]).
  assert (V4x : var s4 x q).
  { eapply rebound_other_var; [exact R4|congruence|]. eapply rebound_var; eassumption. }
  assert (V4y : var s4 y p).
  { eapply rebound_var; [exact R4|]. eapply moved_den; [exact M3|]. exact (adv_den _ _ _ _ A2 D1). }
  destruct (get_name_ok s4 x q) as (w & s5 & E5 & A5 & D5 & _); [|exact V4x|].
  { eapply moved_ordinary; [exact M4|]. eapply moved_ordinary; [exact M3|].
    exact (adv_ordinary _ _ _ A12 Ox). }
  exists w, s5. split; [|split; [exact D5|split; [eapply adv_var; eassumption
                                                 |split; [eapply adv_var; eassumption|]]]].
  - apply gives_evals. exists (XL (lname x)), s4. split; [|exact E5].
    change (app "::" [name x; name y]) with (TApp op_swap [name x; name y]).
    apply evals_vals2; [reflexivity|].
    exists (XL (lname x)), (XL (lname y)), s, s.
    split; [apply evals_name; auto|]. split; [apply evals_name; auto|]. exists 0%nat.
    change (SWAP (XL (lname x)) (XL (lname y)) s = Ok (XL (lname x)) s4).
    unfold SWAP. cbn [rval_h]. unfold lname in *.
    rewrite (bind_step _ _ _ _ _ E1), (bind_step _ _ _ _ _ E2), (bind_step _ _ _ _ _ E3),
      (bind_step _ _ _ _ _ E4). reflexivity.
  - intros z r Nx Ny V. eapply adv_var; [exact A5|].
    eapply rebound_other_var; [exact R4|exact Ny|].
    eapply rebound_other_var; [exact R3|exact Nx|]. exact (adv_var _ _ _ _ A12 V).
Qed.
