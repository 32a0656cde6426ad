(** * Relating two interpreters

    [closed P]: the relation [P] between computations is preserved by the
    monad operations, by the primitive effects and by the ways computations
    are combined in Exec.v.  Then [P] relates all parts of [step R] and
    [step R'] if it relates those of [R] and [R']. *)

From Coq Require Import String List NArith ZArith Bool Arith.
From Verif Require Import PyStr PyRe PyNum Tokens OpFun OpTable Scan Parse
                          PTypes Ops OpsSeq Apply Heap Exec.
Import ListNotations.
Local Open Scope string_scope.
Local Open Scope list_scope.
Local Open Scope Z_scope.

Definition mrel : Type := forall A : Type, M A -> M A -> Prop.

Record closed (P : mrel) : Prop := mkclosed
  { cl_ret : forall A (a : A), P A (mret a) (mret a);
    cl_bind : forall A B (m m' : M A) (f f' : A -> M B),
        P A m m' -> (forall a, P B (f a) (f' a)) ->
        P B (mbind m f) (mbind m' f');
    cl_fail : forall A e, P A (fail e) (fail e);
    cl_diverge : forall A, P A diverge diverge;
    cl_alloc : forall c, P loc (alloc c) (alloc c);
    cl_load : forall l, P cell (load l) (load l);
    cl_store : forall l c, P unit (store l c) (store l c);
    cl_fmt : P ofmt get_fmt get_fmt;
    cl_tao : P (option str) get_tao get_tao;
    cl_args : P (list hval) get_args get_args;
    cl_main : P (option hval) get_main get_main;
    cl_warn : forall w, P unit (mwarn w) (mwarn w);
    cl_out : forall t, P unit (put_out t) (put_out t);
    cl_read : P (option str) read_line read_line;
    cl_get : forall x, P (option hval) (get_var x) (get_var x);
    cl_set : forall x v, P unit (set_var x v) (set_var x v);
    cl_reset : forall e, P unit (reset_vars e) (reset_vars e);
    cl_fun : P (option hval) current_fun current_fun;
    cl_draw : forall k, P Z (draw k) (draw k);
    cl_seed : forall t, P unit (reseed t) (reseed t);
    cl_dread : forall v, P pval (dread v) (dread v);
    cl_fresh : forall p, P hval (fresh p) (fresh p);
    cl_copy : forall v, P hval (copy v) (copy v);
    cl_catch : forall A (m m' : M A), P A m m' -> P A (catch_type m) (catch_type m');
    cl_swallow : forall A (m m' h h' : M A),
        P A m m' -> P A h h' -> P A (swallow_type m h) (swallow_type m' h');
    cl_scope : forall sc (m m' : M hval),
        P hval m m' -> P hval (in_scope sc m) (in_scope sc m') }.

Record related (P : mrel) (R R' : interp) : Prop := mkrelated
  { re_eval : forall t, P xval (i_eval R t) (i_eval R' t);
    re_op : forall o l, P xval (i_op R o l) (i_op R' o l);
    re_fun : forall f l, P xval (i_fun R f l) (i_fun R' f l);
    re_stmt : forall t, P (option hval) (i_stmt R t) (i_stmt R' t);
    re_call : forall f l, P hval (i_call R f l) (i_call R' f l);
    re_while : forall b c l, P unit (i_while R b c l) (i_while R' b c l) }.

Section Lift.
  Variable P : mrel.
  Hypothesis C : closed P.

  Ltac prim :=
    first
      [ apply (cl_ret _ C) | apply (cl_fail _ C) | apply (cl_diverge _ C)
      | apply (cl_alloc _ C) | apply (cl_load _ C) | apply (cl_store _ C)
      | apply (cl_fmt _ C) | apply (cl_tao _ C) | apply (cl_args _ C)
      | apply (cl_main _ C) | apply (cl_warn _ C) | apply (cl_out _ C)
      | apply (cl_read _ C) | apply (cl_get _ C) | apply (cl_set _ C)
      | apply (cl_reset _ C) | apply (cl_fun _ C) | apply (cl_dread _ C)
      | apply (cl_fresh _ C) | apply (cl_copy _ C)
      | apply (cl_draw _ C) | apply (cl_seed _ C) ].

  Lemma r_mmap A B (f f' : A -> M B) l :
    (forall x, P B (f x) (f' x)) -> P _ (mmap f l) (mmap f' l).
  Proof.
    intros H. induction l as [|x l IH]; cbn [mmap]; [apply (cl_ret _ C)|].
    apply (cl_bind _ C); [apply H|]. intros y.
    apply (cl_bind _ C); [exact IH|]. intros ys. apply (cl_ret _ C).
  Qed.
  Lemma r_mfor A B (f f' : A -> M B) l :
    (forall x, P B (f x) (f' x)) -> P _ (mfor f l) (mfor f' l).
  Proof.
    intros H. induction l as [|x l IH]; cbn [mfor]; [apply (cl_ret _ C)|].
    apply (cl_bind _ C); [apply H|]. intros _. exact IH.
  Qed.
  Lemma r_mfold A B (f f' : B -> A -> M B) l :
    (forall acc x, P B (f acc x) (f' acc x)) ->
    forall acc, P _ (mfold f acc l) (mfold f' acc l).
  Proof.
    intros H. induction l as [|x l IH]; intros acc; cbn [mfold];
      [apply (cl_ret _ C)|].
    apply (cl_bind _ C); [apply H|]. intros y. apply IH.
  Qed.
  Lemma r_mrepeat A (m m' : M A) n : P A m m' -> P _ (mrepeat n m) (mrepeat n m').
  Proof.
    intros H. induction n as [|n IH]; cbn [mrepeat]; [apply (cl_ret _ C)|].
    apply (cl_bind _ C); [exact H|]. intros _. exact IH.
  Qed.
  Lemma r_mscan (f f' : xval -> hval -> M xval) l :
    (forall acc x, P _ (f acc x) (f' acc x)) ->
    forall acc, P _ (mscan f acc l) (mscan f' acc l).
  Proof.
    intros H. induction l as [|x l IH]; intros acc; cbn [mscan];
      [apply (cl_ret _ C)|].
    apply (cl_bind _ C); [apply H|]. intros y.
    apply (cl_bind _ C); [apply IH|]. intros ys. apply (cl_ret _ C).
  Qed.

  (** One step of the traversal: a primitive, a combinator, or a case
      distinction. *)
  Ltac go1 :=
    match goal with
    | |- P _ (mbind _ _) (mbind _ _) => apply (cl_bind _ C); [|intros ?]
    | |- P _ (mmap _ _) (mmap _ _) => apply r_mmap; intros ?
    | |- P _ (mfor _ _) (mfor _ _) => apply r_mfor; intros ?
    | |- P _ (mfold _ _ _) (mfold _ _ _) => apply r_mfold; intros ? ?
    | |- P _ (mrepeat _ _) (mrepeat _ _) => apply r_mrepeat
    | |- P _ (mscan _ _ _) (mscan _ _ _) => apply r_mscan; intros ? ?
    | |- P _ (catch_type _) (catch_type _) => apply (cl_catch _ C)
    | |- P _ (swallow_type _ _) (swallow_type _ _) => apply (cl_swallow _ C)
    | |- P _ (in_scope _ _) (in_scope _ _) => apply (cl_scope _ C)
    | |- P _ (match ?x with _ => _ end) _ => destruct x
    | |- P _ ((match ?x with _ => _ end) _) _ => destruct x
    end.
  Ltac go := repeat first [go1 | prim | assumption].

  Lemma r_load_str l : P _ (load_str l) (load_str l).
  Proof. unfold load_str. go. Qed.
  Lemma r_load_list l : P _ (load_list l) (load_list l).
  Proof. unfold load_list. go. Qed.
  Lemma r_of_res A (r : res A) : P _ (of_res r) (of_res r).
  Proof. unfold of_res. go. Qed.
  Lemma r_of_pm A (m : pm A) : P _ (of_pm m) (of_pm m).
  Proof. unfold of_pm. go. apply r_of_res. Qed.
  Lemma r_copies l : P _ (copies l) (copies l).
  Proof. unfold copies. go. Qed.
  Lemma r_new_list l : P _ (new_list l) (new_list l).
  Proof. unfold new_list. go. Qed.
  Lemma r_fresh_all l : P _ (fresh_all l) (fresh_all l).
  Proof. unfold fresh_all. go. Qed.

  Ltac lib :=
    first [ apply r_load_str | apply r_load_list | apply r_of_res
          | apply r_of_pm | apply r_copies | apply r_new_list
          | apply r_fresh_all ].
  Ltac go2 := repeat first [go1 | prim | lib | assumption].

  Lemma r_truth v : P _ (truth v) (truth v).
  Proof. unfold truth. go2. Qed.
  Lemma r_h_iter v : P _ (h_iter v) (h_iter v).
  Proof. unfold h_iter. go2. Qed.
  Lemma r_h_list v : P _ (h_list v) (h_list v).
  Proof. unfold h_list. go2; apply r_h_iter. Qed.
  Lemma r_h_take n v : P _ (h_take n v) (h_take n v).
  Proof. unfold h_take. go2; apply r_h_iter. Qed.
  Lemma r_h_len v : P _ (h_len v) (h_len v).
  Proof. unfold h_len. go2. Qed.
  Lemma r_index_new p i : P _ (index_new p i) (index_new p i).
  Proof. unfold index_new. go2. Qed.
  Lemma r_h_index v i : P _ (h_index v i) (h_index v i).
  Proof. unfold h_index. repeat first [go1 | apply r_index_new | prim | lib]. Qed.
  Lemma r_h_setitem v i w : P _ (h_setitem v i w) (h_setitem v i w).
  Proof. unfold h_setitem. repeat first [go1 | apply r_h_list | prim | lib]. Qed.
  Lemma r_mk_lval x : P _ (mk_lval x) (mk_lval x).
  Proof. unfold mk_lval. go2. Qed.
  Lemma r_lval_extend lv i : P _ (lval_extend lv i) (lval_extend lv i).
  Proof. unfold lval_extend. go2. Qed.
  Lemma r_follow sl : forall v, P _ (follow v sl) (follow v sl).
  Proof.
    induction sl as [|i sl IH]; intros v; cbn [follow]; [prim|].
    repeat first [go1 | apply r_h_index | apply IH | prim].
  Qed.
  Lemma r_dig sl : forall v, P _ (dig v sl) (dig v sl).
  Proof.
    induction sl as [|i sl IH]; intros v; cbn [dig]; [prim|].
    repeat first [go1 | apply r_h_index | apply IH | prim].
  Qed.
  Lemma r_assign_name x sl v : P _ (assign_name x sl v) (assign_name x sl v).
  Proof.
    unfold assign_name.
    repeat first [go1 | apply r_h_iter | apply r_dig | apply r_h_setitem | prim | lib].
  Qed.
  Lemma r_get_special x c : P _ (get_special x c) (get_special x c).
  Proof. unfold get_special. cbv zeta. go2. Qed.

  Section LvalInd.
    Variable Q : lval -> Prop.
    Hypothesis Qname : forall x sl c, Q (LName x sl c).
    Hypothesis Qlist : forall items sl, Forall Q items -> Q (LList items sl).
    Fixpoint lval_ind' (lv : lval) : Q lv :=
      match lv with
      | LName x sl c => Qname x sl c
      | LList items sl =>
        Qlist items sl
          ((fix all l : Forall Q l :=
              match l with
              | [] => Forall_nil Q
              | x :: l' => Forall_cons x (lval_ind' x) (all l')
              end) items)
      end.
  End LvalInd.

  Lemma r_get_lval lv : P _ (get_lval lv) (get_lval lv).
  Proof.
    induction lv as [x sl c|items sl IH] using lval_ind'; cbn [get_lval].
    - repeat first [go1 | apply r_assign_name | apply r_get_special | apply r_follow | prim | lib].
    - apply (cl_bind _ C); [|intros vs; lib].
      induction IH as [|y l Hy _ IH]; cbn [mmap]; [prim|].
      apply (cl_bind _ C); [exact Hy|]. intros v.
      apply (cl_bind _ C); [exact IH|]. intros vs. prim.
  Qed.
  Lemma r_assign lv : forall v, P _ (assign lv v) (assign lv v).
  Proof.
    induction lv as [x sl c|items sl IH] using lval_ind'; intros v;
      cbn [assign]; [apply r_assign_name|].
    assert (G : forall vals,
      let go := fix go (items : list lval) (vals : list hval) : M unit :=
         match items, vals with
         | [], [] => mret tt
         | [], _ :: _ => mwarn "assign: unused values"
         | lv :: items', [] =>
           mwarn "assign: missing value";; assign lv HNil;; go items' []
         | lv :: items', v :: vals' => assign lv v;; go items' vals'
         end in P _ (go items vals) (go items vals)).
    { induction IH as [|y l Hy _ IH]; intros [|w vals]; cbv beta iota zeta in *;
        try prim;
        repeat first [go1 | apply Hy | apply IH | prim]. }
    destruct v; try prim;
      (apply (cl_bind _ C); [apply r_h_take | intros vals; apply G]).
  Qed.

  Ltac base :=
    first [ prim | lib
          | apply r_truth | apply r_h_iter | apply r_h_list | apply r_h_take
          | apply r_h_len | apply r_h_index | apply r_h_setitem
          | apply r_mk_lval | apply r_lval_extend | apply r_get_lval
          | apply r_assign ].

  Lemma r_xwarn w : P _ (xwarn w) (xwarn w).
  Proof. unfold xwarn. repeat first [go1 | base]. Qed.
  Lemma r_xret v : P _ (xret v) (xret v).
  Proof. unfold xret. base. Qed.
  Lemma r_to_r x : P _ (to_r x) (to_r x).
  Proof. unfold to_r. repeat first [go1 | base]. Qed.
  Lemma r_rval_x x : P _ (rval_x x) (rval_x x).
  Proof. unfold rval_x, xret. repeat first [go1 | base]. Qed.
  Lemma r_rval_h x : P _ (rval_h x) (rval_h x).
  Proof. unfold rval_h. repeat first [go1 | base]. Qed.
  Lemma r_truth_x x : P _ (truth_x x) (truth_x x).
  Proof. unfold truth_x. repeat first [go1 | base]. Qed.
  Lemma r_unmodelled A : P A unmodelled unmodelled.
  Proof. apply (cl_fail _ C). Qed.
  Lemma r_h_size v : P _ (h_size v) (h_size v).
  Proof. unfold h_size. repeat first [go1 | base]. Qed.
  Lemma r_h_zip v w : P _ (h_zip v w) (h_zip v w).
  Proof. unfold h_zip. repeat first [go1 | apply r_h_size | base]. Qed.
  Lemma r_key_of w p : P _ (key_of w p) (key_of w p).
  Proof. unfold key_of. repeat first [go1 | base]. Qed.
  Lemma r_wipe : P _ wipe_globals wipe_globals.
  Proof.
    unfold wipe_globals. cbv zeta. generalize global_table. intros tbl.
    repeat first [go1 | base].
  Qed.

  Lemma r_assign_match h : P _ (assign_match h) (assign_match h).
  Proof.
    unfold assign_match, group_value. cbv zeta. repeat first [go1 | base].
  Qed.
  Lemma r_assign_hit h : P _ (assign_hit h) (assign_hit h).
  Proof. unfold assign_hit. repeat first [go1 | apply r_assign_match | base]. Qed.
  Lemma r_regex_pair a b : P _ (regex_pair a b) (regex_pair a b).
  Proof. unfold regex_pair. cbv zeta. repeat first [go1 | base]. Qed.

  Section Step.
    Variables R R' : interp.
    Hypothesis HR : related P R R'.

    Ltac rec :=
      first [ apply (re_eval _ _ _ HR) | apply (re_op _ _ _ HR)
            | apply (re_fun _ _ _ HR) | apply (re_stmt _ _ _ HR)
            | apply (re_call _ _ _ HR) | apply (re_while _ _ _ HR) ].
    Ltac ext :=
      first [ base | rec
            | apply r_xwarn | apply r_xret | apply r_to_r | apply r_rval_x
            | apply r_rval_h | apply r_truth_x | apply r_unmodelled
            | apply r_h_size | apply r_h_zip | apply r_key_of
            | apply r_assign_match | apply r_assign_hit | apply r_regex_pair ].
    Ltac auto_rel := repeat first [go1 | ext].

    Lemma r_eval_arg a : P _ (eval_arg R a) (eval_arg R' a).
    Proof. unfold eval_arg. auto_rel. Qed.
    Lemma r_rval_arg a : P _ (rval_arg R a) (rval_arg R' a).
    Proof. unfold rval_arg. auto_rel. Qed.
    Lemma r_rval_arg_h a : P _ (rval_arg_h R a) (rval_arg_h R' a).
    Proof. unfold rval_arg_h. repeat first [go1 | apply r_rval_arg | ext]. Qed.
    Lemma r_rval_tree t : P _ (rval_tree R t) (rval_tree R' t).
    Proof. apply r_rval_arg_h. Qed.
    Lemma r_args_r l : P _ (args_r l) (args_r l).
    Proof. unfold args_r. auto_rel. Qed.
    Lemma r_at_index x i : P _ (at_index x i) (at_index x i).
    Proof. unfold at_index. auto_rel. Qed.
    Lemma r_AT x i : P _ (AT R x i) (AT R' x i).
    Proof. unfold AT. repeat first [go1 | apply r_at_index | ext]. Qed.
    Lemma r_slice_op f w mk x i d :
      P _ (slice_op R f w mk x i d) (slice_op R' f w mk x i d).
    Proof. unfold slice_op. cbv zeta. auto_rel. Qed.
    Lemma r_MAP a b : P _ (MAP R a b) (MAP R' a b).
    Proof. unfold MAP. auto_rel. Qed.
    Lemma r_MAPZIP a b c : P _ (MAPZIP R a b c) (MAPZIP R' a b c).
    Proof. unfold MAPZIP. auto_rel. Qed.
    Lemma r_grid_of f a b : P _ (grid_of R f a b) (grid_of R' f a b).
    Proof. unfold grid_of. auto_rel. Qed.
    Lemma r_MAPCOORDS a b : P _ (MAPCOORDS R a b) (MAPCOORDS R' a b).
    Proof. unfold MAPCOORDS. repeat first [go1 | apply r_grid_of | ext]. Qed.
    Lemma r_MAPENUMERATE a b : P _ (MAPENUMERATE R a b) (MAPENUMERATE R' a b).
    Proof. unfold MAPENUMERATE. repeat first [go1 | apply r_MAPZIP | ext]. Qed.
    Lemma r_MAPMAP a b : P _ (MAPMAP R a b) (MAPMAP R' a b).
    Proof. unfold MAPMAP. auto_rel. Qed.
    Lemma r_MAPPAIRS a b : P _ (MAPPAIRS R a b) (MAPPAIRS R' a b).
    Proof. unfold MAPPAIRS. repeat first [go1 | apply r_MAPZIP | ext]. Qed.
    Lemma r_MAPSUM a b : P _ (MAPSUM R a b) (MAPSUM R' a b).
    Proof. unfold MAPSUM. repeat first [go1 | apply r_MAP | ext]. Qed.
    Lemma r_unpack w v : P _ (unpack w v) (unpack w v).
    Proof. unfold unpack. auto_rel. Qed.
    Lemma r_MAPUNPACK a b : P _ (MAPUNPACK R a b) (MAPUNPACK R' a b).
    Proof. unfold MAPUNPACK. repeat first [go1 | apply r_unpack | ext]. Qed.
    Lemma r_MAPREGEX a b c : P _ (MAPREGEX R a b c) (MAPREGEX R' a b c).
    Proof. unfold MAPREGEX. auto_rel. Qed.
    Lemma r_sub_calls blk t hits : forall pos,
      P _ (sub_calls R blk t pos hits) (sub_calls R' blk t pos hits).
    Proof.
      induction hits as [|h hits IH]; intros pos; cbn [sub_calls]; [prim|].
      repeat first [go1 | apply IH | ext].
    Qed.
    Lemma r_sub_call blk re fl t : P _ (sub_call R blk re fl t) (sub_call R' blk re fl t).
    Proof. unfold sub_call. repeat first [go1 | apply r_sub_calls | ext]. Qed.
    Lemma r_replace_fails : P _ replace_fails replace_fails.
    Proof. unfold replace_fails. auto_rel. Qed.
    Fixpoint r_replace_call1 blk old {struct old} : forall lhs,
      P _ (replace_call1 R blk old lhs) (replace_call1 R' blk old lhs).
    Proof.
      intros lhs. destruct old as [o|re fl|os|lo [u|]|sts r|]; destruct lhs as [t|? ?|?|? ?|? ?|];
        cbn [replace_call1];
        try first [apply r_replace_fails | apply r_sub_call | prim].
      - generalize (PScal t). induction os as [|o os IH]; intros acc; cbn [mfold]; [prim|].
        apply (cl_bind _ C); [apply r_replace_call1|]. intros y. apply IH.
      - apply r_mfold. intros acc z.
        destruct acc; first [apply r_replace_fails | apply r_sub_call].
    Qed.
    Fixpoint r_replace_call blk old lhs {struct lhs} :
      P _ (replace_call R blk old lhs) (replace_call R' blk old lhs).
    Proof.
      destruct lhs as [t|? ?|l|lo [u|]|? ?|]; cbn [replace_call];
        try first [apply r_replace_call1 | prim].
      - assert (G : P _ (mmap (replace_call R blk old) l) (mmap (replace_call R' blk old) l)).
        { induction l as [|x l IH]; cbn [mmap]; [prim|].
          apply (cl_bind _ C); [apply r_replace_call|]. intros y.
          apply (cl_bind _ C); [exact IH|]. intros ys. prim. }
        destruct old as [?|? ?|?|? [?|]|? ?|]; try first [apply r_replace_fails | prim];
          (apply (cl_bind _ C); [exact G|intros; prim]).
      - destruct old as [?|? ?|?|? [?|]|? ?|]; try first [apply r_replace_fails | prim];
          repeat first [go1 | apply r_replace_call1 | prim].
    Qed.
    Lemma r_REPLACE_CALL a b c : P _ (REPLACE_CALL R a b c) (REPLACE_CALL R' a b c).
    Proof. unfold REPLACE_CALL. repeat first [go1 | apply r_replace_call | ext]. Qed.
    Lemma r_filter_with w neg args result a b :
      (forall p, P _ (args p) (args p)) -> (forall p, P _ (result p) (result p)) ->
      P _ (filter_with R w neg args result a b) (filter_with R' w neg args result a b).
    Proof.
      intros Ha Hr. unfold filter_with.
      repeat first [go1 | apply Ha | apply Hr | ext].
    Qed.
    Lemma r_arg_item p : P _ (arg_item p) (arg_item p).
    Proof. unfold arg_item. auto_rel. Qed.
    Lemma r_arg_indexed p : P _ (arg_indexed p) (arg_indexed p).
    Proof. unfold arg_indexed. auto_rel. Qed.
    Lemma r_arg_unpacked p : P _ (arg_unpacked p) (arg_unpacked p).
    Proof. unfold arg_unpacked. auto_rel. Qed.
    Lemma r_kept_item p : P _ (kept_item p) (kept_item p).
    Proof. unfold kept_item. auto_rel. Qed.
    Lemma r_kept_index p : P _ (kept_index p) (kept_index p).
    Proof. unfold kept_index. auto_rel. Qed.
    Lemma r_SORT w d a b : P _ (SORT R w d a b) (SORT R' w d a b).
    Proof. unfold SORT. auto_rel. Qed.
    Lemma r_ASSIGN a b : P _ (ASSIGN a b) (ASSIGN a b).
    Proof. unfold ASSIGN. auto_rel. Qed.
    Lemma r_SWAP a b : P _ (SWAP a b) (SWAP a b).
    Proof. unfold SWAP. auto_rel. Qed.
    Lemma r_INC w o x : P _ (INC R w o x) (INC R' w o x).
    Proof. unfold INC. auto_rel. Qed.
    Lemma r_put_back w x r i : P _ (put_back w x r i) (put_back w x r i).
    Proof. unfold put_back. auto_rel. Qed.
    Lemma r_some_item o : P _ (some_item o) (some_item o).
    Proof. unfold some_item. auto_rel. Qed.
    Lemma r_take_end w x v i r : P _ (take_end w x v i r) (take_end w x v i r).
    Proof.
      unfold take_end.
      repeat first [go1 | apply r_put_back | apply r_some_item | ext].
    Qed.
    Lemma r_POP x : P _ (POP x) (POP x).
    Proof.
      unfold POP. cbv zeta.
      repeat first [go1 | apply r_take_end | apply r_put_back | ext].
    Qed.
    Lemma r_DEQUEUE x : P _ (DEQUEUE x) (DEQUEUE x).
    Proof.
      unfold DEQUEUE.
      repeat first [go1 | apply r_take_end | apply r_put_back | ext].
    Qed.
    Lemma r_pick_list x l i : P _ (pick_list x l i) (pick_list x l i).
    Proof. unfold pick_list. cbv zeta. repeat first [go1 | apply r_put_back | ext]. Qed.
    Lemma r_PICK x y : P _ (PICK x y) (PICK x y).
    Proof.
      unfold PICK. cbv zeta.
      repeat first [go1 | apply r_pick_list | apply r_put_back | ext].
    Qed.
    Lemma r_PUSH_with w b x y : P _ (PUSH_with w b x y) (PUSH_with w b x y).
    Proof. unfold PUSH_with. cbv zeta. auto_rel. Qed.
    Lemma r_YANK v : P _ (YANK v) (YANK v).
    Proof. unfold YANK. auto_rel. Qed.
    Lemma r_random_int lo hi : P _ (random_int lo hi) (random_int lo hi).
    Proof. unfold random_int, randrange. auto_rel. Qed.
    Lemma r_RANDRANGE a b : P _ (RANDRANGE a b) (RANDRANGE a b).
    Proof. unfold RANDRANGE. repeat first [go1 | apply r_random_int | ext]. Qed.
    Lemma r_RANDRANGETO b : P _ (RANDRANGETO b) (RANDRANGETO b).
    Proof. unfold RANDRANGETO. repeat first [go1 | apply r_random_int | ext]. Qed.
    Lemma r_RANDCHOICE v : P _ (RANDCHOICE v) (RANDCHOICE v).
    Proof. unfold RANDCHOICE, randrange. repeat first [go1 | apply r_some_item | ext]. Qed.
    Lemma r_shuffle A i : forall l : list A, P _ (shuffle i l) (shuffle i l).
    Proof.
      induction i as [|[|i] IH]; intros l; try prim.
      change (shuffle (S (S i)) l)
        with (k <- draw (Z.of_nat (S (S i)));; shuffle (S i) (swap_items l (S i) (Z.to_nat k))).
      apply (cl_bind _ C); [prim|]. intros k. apply IH.
    Qed.
    Lemma r_SHUFFLE v : P _ (SHUFFLE v) (SHUFFLE v).
    Proof. unfold SHUFFLE. repeat first [go1 | apply r_shuffle | ext]. Qed.
    Lemma r_OUTPUT v : P _ (OUTPUT v) (OUTPUT v).
    Proof. unfold OUTPUT. auto_rel. Qed.
    Lemma r_PRINT v : P _ (PRINT v) (PRINT v).
    Proof. unfold PRINT. auto_rel. Qed.
    Lemma r_chain_links_le : forall n rest v, (length rest <= n)%nat ->
      P _ (chain_links R v rest) (chain_links R' v rest).
    Proof.
      induction n as [|n IH]; intros [|x rest] v L; cbn [chain_links];
        try apply r_unmodelled; [simpl in L; inversion L|].
      destruct x; try apply (cl_fail _ C).
      destruct rest as [|y rest]; try apply (cl_fail _ C).
      destruct y; try apply (cl_fail _ C).
      apply (cl_bind _ C); [rec|]. intros r.
      destruct rest as [|z rest]; [prim|].
      apply (cl_bind _ C); [apply r_truth_x|].
      intros [|]; [apply IH; simpl in L |- *; auto with arith | prim].
      apply le_S_n in L. apply Nat.le_trans with (2 := L). auto.
    Qed.
    Lemma r_chain_links rest v : P _ (chain_links R v rest) (chain_links R' v rest).
    Proof. apply (r_chain_links_le (length rest)). apply le_n. Qed.
    Lemma r_CHAIN xs : P _ (CHAIN R xs) (CHAIN R' xs).
    Proof. unfold CHAIN. repeat first [go1 | apply r_chain_links | ext]. Qed.
    Lemma r_tree_of_text s : P _ (tree_of_text s) (tree_of_text s).
    Proof. unfold tree_of_text. auto_rel. Qed.
    Lemma r_EVAL a b : P _ (EVAL R a b) (EVAL R' a b).
    Proof. unfold EVAL. repeat first [go1 | apply r_tree_of_text | ext]. Qed.
    Lemma r_SEND a b : P _ (SEND R a b) (SEND R' a b).
    Proof. unfold SEND. auto_rel. Qed.
    Lemma r_LIST a : P _ (LIST a) (LIST a).
    Proof. unfold LIST. auto_rel. Qed.
    Lemma r_pure_call f l : P _ (pure_call f l) (pure_call f l).
    Proof. unfold pure_call. repeat first [go1 | apply r_args_r | ext]. Qed.

    Ltac ops :=
      first [ apply r_pure_call | apply r_ASSIGN | apply r_SWAP
            | apply r_rval_arg_h | apply r_eval_arg | apply r_LIST
            | apply r_SEND | apply r_CHAIN | apply r_AT | apply r_slice_op
            | apply r_INC | apply r_PUSH_with | apply r_POP | apply r_DEQUEUE
            | apply r_PICK | apply r_YANK | apply r_OUTPUT | apply r_PRINT
            | apply r_EVAL | apply r_MAP | apply r_MAPCOORDS
            | apply r_MAPENUMERATE | apply r_MAPMAP | apply r_MAPPAIRS
            | apply r_MAPSUM | apply r_MAPUNPACK | apply r_MAPZIP
            | apply r_MAPREGEX | apply r_REPLACE_CALL | apply r_SORT
            | apply r_RANDRANGE | apply r_RANDRANGETO | apply r_RANDCHOICE
            | apply r_SHUFFLE
            | apply r_filter_with;
              [ first [apply r_arg_item | apply r_arg_indexed
                      | apply r_arg_unpacked]
              | first [apply r_kept_item | apply r_kept_index] ] ].
    Lemma r_call_fun f l : P _ (call_fun R f l) (call_fun R' f l).
    Proof.
      destruct f; unfold call_fun;
        first [ apply r_pure_call | repeat first [go1 | ops | ext] ].
    Qed.

    Lemma r_MAPMETA o a : P _ (MAPMETA R o a) (MAPMETA R' o a).
    Proof.
      unfold MAPMETA, meta_block. cbv zeta.
      repeat first [go1 | apply r_rval_arg_h | ext].
    Qed.
    Lemma r_fold_items o l : P _ (fold_items R o l) (fold_items R' o l).
    Proof. unfold fold_items. auto_rel. Qed.
    Lemma r_FOLDMETA o a : P _ (FOLDMETA R o a) (FOLDMETA R' o a).
    Proof.
      unfold FOLDMETA, meta_block. cbv zeta.
      repeat first [go1 | apply r_rval_arg_h | apply r_fold_items | ext].
    Qed.
    Lemma r_scan_items o l : P _ (scan_items R o l) (scan_items R' o l).
    Proof. unfold scan_items. auto_rel. Qed.
    Lemma r_SCANMETA o a : P _ (SCANMETA R o a) (SCANMETA R' o a).
    Proof.
      unfold SCANMETA, meta_block. cbv zeta.
      repeat first [go1 | apply r_rval_arg_h | apply r_scan_items | ext].
    Qed.
    Lemma r_prepare fl a : P _ (prepare R fl a) (prepare R' fl a).
    Proof.
      unfold prepare.
      repeat first [go1 | apply r_rval_arg | apply r_eval_arg | ext].
    Qed.
    Lemma r_each_result o args items :
      P _ (each_result R o args items) (each_result R' o args items).
    Proof. unfold each_result. auto_rel. Qed.
    Lemma r_apply_x o l : P _ (apply_x R o l) (apply_x R' o l).
    Proof.
      unfold apply_x. cbv zeta.
      repeat first [go1 | apply r_each_result | apply r_call_fun | ext].
    Qed.
    Lemma r_eval_op o l : P _ (eval_op R o l) (eval_op R' o l).
    Proof.
      unfold eval_op. cbv zeta.
      repeat first [go1 | apply r_apply_x | apply r_MAPMETA | apply r_FOLDMETA | apply r_SCANMETA | apply r_prepare | apply r_rval_arg | apply r_ASSIGN | apply r_eval_arg | ext].
    Qed.
    Lemma r_eval_tree t : P _ (eval_tree R t) (eval_tree R' t).
    Proof. unfold eval_tree. auto_rel. Qed.
    Lemma r_run_body l : P _ (run_body R l) (run_body R' l).
    Proof. unfold run_body. auto_rel. Qed.
    Lemma r_exec_cmd c l : P _ (exec_cmd R c l) (exec_cmd R' c l).
    Proof.
      unfold exec_cmd.
      repeat first [go1
                   | match goal with
                     | |- P _ wipe_globals _ => apply r_wipe
                     end
                   | apply r_run_body | apply r_rval_tree | ext].
    Qed.
    Lemma r_while_loop b c l : P _ (while_loop R b c l) (while_loop R' b c l).
    Proof.
      unfold while_loop.
      repeat first [go1 | apply r_run_body | apply r_rval_tree | ext].
    Qed.
    Lemma r_exec_stmt t : P _ (exec_stmt R t) (exec_stmt R' t).
    Proof.
      unfold exec_stmt.
      repeat first [go1 | apply r_exec_cmd | apply r_rval_tree | ext].
    Qed.
    Lemma r_update_history v : P _ (update_history v) (update_history v).
    Proof. unfold update_history. auto_rel. Qed.
    Lemma r_new_scope f l : P _ (new_scope f l) (new_scope f l).
    Proof. unfold new_scope. auto_rel. Qed.
    Lemma r_run_stmts l : P _ (run_stmts R l) (run_stmts R' l).
    Proof. unfold run_stmts. repeat first [go1 | apply r_update_history | ext]. Qed.
    Lemma r_call f l : P _ (call R f l) (call R' f l).
    Proof.
      unfold call.
      repeat first [go1 | apply r_new_scope | apply r_run_stmts | apply r_rval_tree | ext].
    Qed.

    Theorem step_related : related P (step R) (step R').
    Proof.
      constructor; cbn [step i_eval i_op i_fun i_stmt i_call i_while].
      - apply r_eval_tree.
      - apply r_eval_op.
      - apply r_call_fun.
      - apply r_exec_stmt.
      - apply r_call.
      - apply r_while_loop.
    Qed.
  End Step.
End Lift.

(** For a relation of each interpreter with itself. *)
Theorem run_related (P : mrel) (C : closed P) n : related P (run n) (run n).
Proof.
  induction n as [|n IH]; [|exact (step_related P C _ _ IH)].
  constructor; intros; apply (cl_diverge _ C).
Qed.
