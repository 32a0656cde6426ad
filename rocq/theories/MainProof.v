(** * Proofs about the main program *)

From Coq Require Import String List NArith ZArith Bool Arith Lia.
From Verif Require AliasStart.
From Verif Require Import PyStr PyNum Tokens OpFun OpTable Scan Parse PTypes Ops Apply Heap Exec
                          ExecRel ExecInv SpecHeap SpecVars HeapProof EvalProof VarProof CtlProof
                          PureProof LoopProof Main SpecMain.
Import ListNotations.
Local Open Scope list_scope.

(** ** Argument lines *)

Lemma is_quote_spec c : is_quote c = true <-> quote_char c.
Proof.
  unfold is_quote, quote_char, c_squote, c_dquote. rewrite orb_true_iff, !N.eqb_eq. tauto.
Qed.
Lemma not_quote c : ~ quote_char c -> is_quote c = false.
Proof. intros H. destruct (is_quote c) eqn:E; [|reflexivity]. apply is_quote_spec in E. tauto. Qed.

Lemma split_quoted q t : quote_char q -> ~ In q t -> forall b r,
  split_loop (Some q) (Some b) (t ++ r) = split_loop (Some q) (Some (b ++ t)) r.
Proof.
  intros Q. induction t as [|c t IH]; intros N b r.
  - rewrite app_nil_r. reflexivity.
  - assert (NE : (q =? c)%N = false) by (apply N.eqb_neq; intros ->; apply N; now left).
    assert (NI : ~ In q t) by (intros I; apply N; now right).
    cbn [Datatypes.app split_loop]. rewrite NE.
    rewrite andb_false_r. cbn [or_empty].
    replace (b ++ c :: t) with ((b ++ [c]) ++ t) by (rewrite <- app_assoc; reflexivity).
    destruct (is_quote c); apply IH; exact NI.
Qed.
Lemma split_piece w t : piece w t -> forall b r,
  split_loop None b (w ++ r) = split_loop None (Some (or_empty b ++ t)) r.
Proof.
  intros P b r. inversion P as [c N NS E1 E2|q t' Q N E1 E2]; subst.
  - cbn [Datatypes.app split_loop]. rewrite (not_quote _ N).
    apply N.eqb_neq in NS. change 32%N with c_space in NS. rewrite NS. reflexivity.
  - cbn [Datatypes.app split_loop]. apply is_quote_spec in Q as Q'. rewrite Q'.
    rewrite <- app_assoc, (split_quoted q t Q N). cbn [Datatypes.app split_loop].
    rewrite Q', N.eqb_refl. reflexivity.
Qed.
Lemma split_spells w t : spells w t -> forall b r,
  split_loop None b (w ++ r) = split_loop None (Some (or_empty b ++ t)) r.
Proof.
  intros P. induction P as [w t P|w t w' t' P Ps IH]; intros b r.
  - apply split_piece, P.
  - rewrite <- app_assoc, (split_piece _ _ P), IH. cbn [or_empty].
    rewrite <- app_assoc. reflexivity.
Qed.
Lemma split_space b r :
  split_loop None b (32%N :: r)
  = match b with Some t => t :: split_loop None None r | None => split_loop None None r end.
Proof. reflexivity. Qed.
Lemma split_line l args r : line_of l args ->
  split_loop None None (l ++ 32%N :: r) = args ++ split_loop None None r.
Proof.
  intros P. induction P as [|l args P IH|w t P|w t l args P Pl IH].
  - apply split_space.
  - cbn [Datatypes.app]. rewrite split_space. exact IH.
  - rewrite (split_spells _ _ P), split_space. reflexivity.
  - rewrite <- app_assoc, (split_spells _ _ P). cbn [Datatypes.app].
    rewrite split_space. cbn [or_empty Datatypes.app]. rewrite IH. reflexivity.
Qed.
Lemma split_args_line l args : line_of l args -> split_args l = args.
Proof.
  intros P. unfold split_args. change [c_space] with (32%N :: @nil N).
  rewrite (split_line l args [] P). apply app_nil_r.
Qed.

(** Any list of arguments can be written. *)
Lemma quote_one c : exists w, spells w [c].
Proof.
  destruct (N.eq_dec c 39) as [->|N].
  - exists (34%N :: [39%N] ++ [34%N]). constructor. constructor; [right; reflexivity|].
    intros [E|[]]. discriminate.
  - exists (39%N :: [c] ++ [39%N]). constructor. constructor; [left; reflexivity|].
    intros [E|[]]. congruence.
Qed.
Lemma spells_app w t w' t' : spells w t -> spells w' t' -> spells (w ++ w') (t ++ t').
Proof.
  intros P P'. induction P as [w t P|w1 t1 w2 t2 P Ps IH].
  - now constructor.
  - rewrite <- !app_assoc. constructor; assumption.
Qed.
Lemma quote_any t : exists w, spells w t.
Proof.
  induction t as [|c t [w IH]].
  - exists (39%N :: [] ++ [39%N]). constructor. constructor; [left; reflexivity|intros []].
  - destruct (quote_one c) as [w' H]. exists (w' ++ w). exact (spells_app _ _ _ _ H IH).
Qed.
Lemma line_any args : exists l, line_of l args.
Proof.
  induction args as [|t args [l IH]]; [exists []; constructor|].
  destruct (quote_any t) as [w H]. exists (w ++ 32%N :: l). constructor; assumption.
Qed.

(** Every line is such a line, or ends inside quotes. *)
Lemma in_quotes (q : N) (l : str) :
  (exists t r, l = t ++ q :: r /\ ~ In q t) \/ ~ In q l.
Proof.
  induction l as [|c l IH]; [right; intros []|].
  destruct (N.eq_dec c q) as [->|N]; [left; exists [], l; auto|].
  destruct IH as [(t & r & -> & H)|H].
  - left. exists (c :: t), r. split; [reflexivity|]. intros [E|I]; tauto.
  - right. intros [E|I]; tauto.
Qed.
Lemma quote_dec c : {quote_char c} + {~ quote_char c}.
Proof.
  destruct (is_quote c) eqn:E; [left; now apply is_quote_spec|].
  right. intros Q. apply is_quote_spec in Q. congruence.
Qed.
(** The first argument of a line that does not begin with a space. *)
Lemma first_arg n : forall l, (length l <= n)%nat -> l <> [] -> (forall r, l <> 32%N :: r) ->
  unclosed l \/
  (exists t, spells l t) \/
  exists w t r, spells w t /\ l = w ++ 32%N :: r.
Proof.
  induction n as [|n IH]; intros l L NE NS.
  { destruct l; [congruence|cbn [length] in L; lia]. }
  destruct l as [|c l]; [congruence|].
  assert (P : unclosed (c :: l) \/ exists w t r, piece w t /\ c :: l = w ++ r /\ (length r <= n)%nat).
  { destruct (quote_dec c) as [Q|NQ].
    - destruct (in_quotes c l) as [(t & r & -> & H)|H].
      + right. exists (c :: t ++ [c]), t, r. split; [constructor; assumption|].
        split; [cbn; rewrite <- app_assoc; reflexivity|].
        unfold char in *. cbn [length] in L. rewrite app_length in L. cbn [length] in L. lia.
      + left. now constructor.
    - right. exists [c], [c], l. split; [|split; [reflexivity|unfold char in *; cbn [length] in *; lia]].
      constructor; [exact NQ|]. intros ->. exact (NS l eq_refl). }
  destruct P as [U|(w & t & r & P & -> & Lr)]; [left; exact U|].
  destruct r as [|d r].
  { right. left. exists t. rewrite app_nil_r. now constructor. }
  destruct (N.eq_dec d 32) as [->|ND].
  { right. right. exists w, t, r. split; [now constructor|reflexivity]. }
  destruct (IH (d :: r) Lr ltac:(discriminate)) as [U|[[t' S]|(w' & t' & r' & S & E)]].
  - intros r' E. congruence.
  - left. apply (unclosed_later w t); assumption.
  - right. left. exists (t ++ t'). now constructor.
  - right. right. exists (w ++ w'), (t ++ t'), r'. split; [now constructor|].
    rewrite E, app_assoc. reflexivity.
Qed.
Lemma every_line l :
  (exists args, line_of l args) \/
  exists l0 u args, line_of l0 args /\ unclosed u /\ (l = u /\ args = [] \/ l = l0 ++ 32%N :: u).
Proof.
  remember (length l) as n eqn:E. assert (L : (length l <= n)%nat) by lia. clear E.
  revert l L. induction n as [|n IH]; intros l L.
  { destruct l; [|cbn [length] in L; lia]. left. exists []. constructor. }
  destruct l as [|c l]; [left; exists []; constructor|].
  destruct (N.eq_dec c 32) as [->|N].
  - destruct (IH l ltac:(unfold char in *; cbn [length] in *; lia)) as [[args H]|(l0 & u & args & H & U & D)].
    + left. exists args. now constructor.
    + right. destruct D as [[-> ->]| ->].
      * exists [], u, []. split; [constructor|]. split; [exact U|]. right. reflexivity.
      * exists (32%N :: l0), u, args. split; [now constructor|]. split; [exact U|].
        right. reflexivity.
  - destruct (first_arg _ (c :: l) (le_n _) ltac:(discriminate)) as [U|[[t S]|(w & t & r & S & E)]].
    + intros r E. congruence.
    + right. exists [], (c :: l), []. split; [constructor|]. split; [exact U|]. left. auto.
    + left. exists [t]. now constructor.
    + rewrite E.
      assert (Lr : (length r <= n)%nat).
      { apply (f_equal (@length char)) in E. rewrite app_length in E. unfold char in *. cbn [length] in *. lia. }
      destruct (IH r Lr) as [[args H]|(l0 & u & args & H & U & D)].
      * left. exists (t :: args). now constructor.
      * right. destruct D as [[-> ->]| ->].
        -- exists w, u, [t]. split; [now constructor|]. split; [exact U|]. right. reflexivity.
        -- exists (w ++ 32%N :: l0), u, (t :: args). split; [now constructor|].
           split; [exact U|]. right. rewrite <- app_assoc. reflexivity.
Qed.
Lemma split_unclosed u : unclosed u -> forall b r, (forall q, quote_char q -> ~ In q r) ->
  split_loop None b (u ++ r) = [].
Proof.
  intros U. induction U as [q t Q N|w t u P U IH]; intros b r NR.
  - cbn [Datatypes.app split_loop]. apply is_quote_spec in Q as Q'. rewrite Q'.
    rewrite (split_quoted q t Q N). specialize (NR q Q).
    rewrite <- (app_nil_r r), (split_quoted q r Q NR). reflexivity.
  - rewrite <- app_assoc, (split_piece _ _ P). apply IH, NR.
Qed.
Lemma split_args_unclosed l u args : line_of l args -> unclosed u ->
  split_args (l ++ 32%N :: u) = args /\ split_args u = [].
Proof.
  intros H U.
  assert (E : split_loop None None (u ++ [32%N]) = []).
  { apply split_unclosed; [exact U|]. intros q [->| ->] [E|[]]; discriminate. }
  split.
  - unfold split_args. rewrite <- app_assoc. cbn [Datatypes.app].
    rewrite (split_line l args _ H). change [c_space] with [32%N].
    rewrite E. apply app_nil_r.
  - exact E.
Qed.

(** ** List formats *)

Lemma join_between sep l : str_join sep l = between sep l.
Proof.
  induction l as [|x l IH]; [reflexivity|]. destruct l as [|y l]; [reflexivity|].
  change (x ++ sep ++ str_join sep (y :: l) = x ++ sep ++ between sep (y :: l)).
  rewrite IH. reflexivity.
Qed.
Lemma between_cons sep x l : l <> [] -> between sep (x :: l) = x ++ sep ++ between sep l.
Proof. destruct l; [congruence|reflexivity]. Qed.
Lemma between_app sep l m : l <> [] -> m <> [] ->
  between sep (l ++ m) = between sep l ++ sep ++ between sep m.
Proof.
  intros NL NM. induction l as [|x l IH]; [congruence|].
  destruct l as [|y l].
  - cbn [Datatypes.app]. rewrite between_cons by exact NM. reflexivity.
  - change ((x :: y :: l) ++ m) with (x :: ((y :: l) ++ m)).
    rewrite between_cons by discriminate. rewrite IH by discriminate.
    rewrite (between_cons sep x (y :: l)) by discriminate.
    rewrite <- !app_assoc. reflexivity.
Qed.
Lemma between_concat sep (ll : list (list str)) :
  Forall (fun l => l <> []) ll ->
  between sep (map (between sep) ll) = between sep (concat ll).
Proof.
  intros F. induction F as [|l ll N F IH]; [reflexivity|].
  destruct ll as [|l' ll].
  - cbn. rewrite app_nil_r. reflexivity.
  - change (concat (l :: l' :: ll)) with (l ++ concat (l' :: ll)).
    cbn [map]. rewrite between_cons by discriminate.
    cbn [map] in IH. rewrite IH. rewrite between_app; [reflexivity|exact N|].
    inversion F; subst. destruct l'; [congruence|discriminate].
Qed.
Lemma between_blank sep l : between sep (or_blank l) = between sep l.
Proof. destruct l; reflexivity. Qed.
Lemma between_nil l : between [] l = concat l.
Proof.
  induction l as [|x l IH]; [reflexivity|]. destruct l as [|y l].
  - cbn. rewrite app_nil_r. reflexivity.
  - rewrite between_cons by discriminate. rewrite IH. reflexivity.
Qed.
Lemma texts_some b p : texts b p <> [].
Proof.
  destruct p; try discriminate; cbn [texts].
  - destruct (concat _); discriminate.
  - destruct hi; [|discriminate]. destruct b; [discriminate|].
    destruct (map _ _); discriminate.
Qed.
Lemma texts_all b l : Forall (fun x : list str => x <> []) (map (texts b) l).
Proof. induction l; constructor; [apply texts_some|assumption]. Qed.

Definition sep_of (fmt : ofmt) : option str :=
  match fmt with FmtNone => Some [] | Fmt_n => Some [10%N] | Fmt_s => Some [32%N] | _ => None end.

Lemma str_texts fmt sep p : sep_of fmt = Some sep ->
  p_str fmt p = between sep (texts false p).
Proof.
  intros S. induction p as [t|t fl|l IH|lo hi|sts ret|] using PFacts.pval_list_ind;
    try reflexivity.
  - cbn [p_str texts]. rewrite between_blank, <- (between_concat sep _ (texts_all false l)).
    assert (E : map (p_str fmt) l = map (between sep) (map (texts false) l)).
    { rewrite map_map. apply map_ext_in. intros x I. rewrite Forall_forall in IH. auto. }
    destruct fmt; try discriminate; injection S as <-; cbn [p_str] in *; rewrite E.
    + rewrite between_nil. reflexivity.
    + rewrite join_between. reflexivity.
    + rewrite join_between. reflexivity.
  - destruct hi as [u|]; [|reflexivity]. cbn [texts]. rewrite between_blank.
    destruct fmt; try discriminate; injection S as <-; cbn;
      rewrite ?join_between, ?between_nil; reflexivity.
Qed.

(** Formats l and S: Lists are joined at every depth, Ranges are not. *)
Lemma joined_texts fmt sep p : (fmt = Fmt_l \/ fmt = Fmt_S) ->
  p_joined (str_nonlist fmt) sep p = between sep (texts true p).
Proof.
  intros S. induction p as [t|t fl|l IH|lo hi|sts ret|] using PFacts.pval_list_ind;
    try reflexivity.
  - cbn [p_joined texts]. rewrite between_blank, <- (between_concat sep _ (texts_all true l)).
    rewrite join_between, map_map. f_equal. apply map_ext_in. intros x I.
    rewrite Forall_forall in IH. auto.
  - destruct hi as [u|]; [|reflexivity]. cbn [texts between]. rewrite between_blank.
    destruct S as [-> | ->]; cbn; rewrite join_between; reflexivity.
Qed.
Lemma str_listing fmt p : p_str fmt p = listing fmt p.
Proof.
  unfold listing. destruct (items p) as [l|] eqn:E.
  2:{ rewrite <- between_nil. destruct p; try discriminate; try reflexivity.
      destruct hi; [discriminate|reflexivity]. }
  destruct fmt.
  - rewrite <- between_nil. apply str_texts. reflexivity.
  - destruct p; try discriminate.
    + injection E as <-. cbn [p_str p_repr]. rewrite join_between. reflexivity.
    + destruct hi as [u|]; [|discriminate]. injection E as <-. cbn.
      rewrite join_between, !map_map. reflexivity.
  - apply str_texts. reflexivity.
  - apply str_texts. reflexivity.
  - destruct p; try discriminate.
    + injection E as <-. cbn [p_str]. rewrite join_between. f_equal. apply map_ext.
      intros x. rewrite joined_texts by auto. apply between_nil.
    + destruct hi as [u|]; [|discriminate]. injection E as <-. cbn.
      rewrite join_between, map_map. f_equal. apply map_ext. intros z. cbn.
      rewrite app_nil_r. reflexivity.
  - destruct p; try discriminate.
    + injection E as <-. cbn [p_str p_repr]. rewrite join_between. reflexivity.
    + destruct hi as [u|]; [|discriminate]. injection E as <-. cbn.
      rewrite join_between, !map_map. reflexivity.
  - destruct p; try discriminate.
    + injection E as <-. cbn [p_str]. rewrite join_between. f_equal. apply map_ext.
      intros x. apply joined_texts. auto.
    + destruct hi as [u|]; [|discriminate]. injection E as <-. cbn.
      rewrite join_between, map_map. reflexivity.
Qed.

(** ** Printing *)

(** Operators that read their only operand. *)
Definition plain_rvals (o : oper) : bool :=
  negb (o_assign o) && negb (o_map o) && negb (o_fold o) && negb (o_scan o)
  && f_rvals (o_flags o)
  && negb (f_in_lambda (o_flags o)) && negb (f_list_each (o_flags o))
  && negb (f_range_each (o_flags o)).
Lemma eval_op_read R o e s v s' :
  plain_rvals o = true -> rval_tree R e s = Ok v s' ->
  eval_op R o [ATree e] s = catch_type (call_fun R (o_fun o) [AVal (XR v)]) s'.
Proof.
  intros P E. unfold plain_rvals in P. split_flags P. unfold eval_op.
  repeat match goal with A : o_assign _ = _ |- _ => rewrite A; clear A
                       | A : o_map _ = _ |- _ => rewrite A; clear A
                       | A : o_fold _ = _ |- _ => rewrite A; clear A
                       | A : o_scan _ = _ |- _ => rewrite A; clear A end.
  assert (Q : mmap (prepare R (o_flags o)) [ATree e] s = Ok [(AVal (XR v), false)] s').
  { cbn [mmap].
    rewrite (bind_step _ _ _ _ _ (prepare_tree R (o_flags o) e s v s' ltac:(assumption) E)).
    match goal with A : f_in_lambda _ = false |- _ => rewrite A end. reflexivity. }
  rewrite (bind_step _ _ _ _ _ Q). cbn [map fst existsb snd orb].
  rewrite apply_plain by assumption. reflexivity.
Qed.
Lemma gives_read text o e s v s1 w s2 :
  op_by_arity 1 (s_ text) = Some o -> plain_rvals o = true ->
  gives s e v s1 ->
  (forall R, call_fun R (o_fun o) [AVal (XR v)] s1 = Ok (XR w) s2) ->
  gives s (SpecVars.app text [e]) w s2.
Proof.
  intros F P [n E] C. apply gives_evals. exists (XR w), s2. split; [|reflexivity].
  unfold SpecVars.app. cbn [length]. rewrite F. exists (S (S n)). rewrite eval_app_eq.
  cbn [map]. rewrite (eval_op_read _ _ _ _ _ _ P E). apply catch_ok. apply C.
Qed.


Lemma output_ok v p s : den (st_heap s) v p -> p <> PNil ->
  OUTPUT v s = Ok tt (printed (listing (st_fmt s) p) s)
  /\ PRINT v s = Ok tt (printed (listing (st_fmt s) p ++ [10%N]) s).
Proof.
  intros D N. rewrite <- str_listing. unfold OUTPUT, PRINT.
  assert (M : v <> HNil) by (intros ->; inversion D; congruence).
  pose proof (dread_ok _ _ _ D) as E.
  split; (destruct v; try congruence;
    unfold mbind at 1, get_fmt; rewrite (bind_step _ _ _ _ _ E); reflexivity).
Qed.

Lemma output_expr e s v s1 p :
  gives s e v s1 -> den (st_heap s1) v p -> p <> PNil ->
  gives s (SpecVars.app "O" [e]) v (printed (listing (st_fmt s1) p) s1)
  /\ gives s (SpecVars.app "P" [e]) v (printed (listing (st_fmt s1) p ++ [10%N]) s1).
Proof.
  intros G D N. destruct (output_ok v p s1 D N) as [E1 E2]. split.
  - apply (gives_read "O" _ e s v s1 v _ eq_refl eq_refl G). intros R.
    change (mbind (OUTPUT v) (fun _ => xret v) s1
            = Ok (XR v) (printed (listing (st_fmt s1) p) s1)).
    rewrite (bind_step _ _ _ _ _ E1). reflexivity.
  - apply (gives_read "P" _ e s v s1 v _ eq_refl eq_refl G). intros R.
    change (mbind (PRINT v) (fun _ => xret v) s1
            = Ok (XR v) (printed (listing (st_fmt s1) p ++ [10%N]) s1)).
    rewrite (bind_step _ _ _ _ _ E2). reflexivity.
Qed.
Lemma output_nil e s s1 : gives s e HNil s1 ->
  gives s (SpecVars.app "O" [e]) HNil s1 /\ gives s (SpecVars.app "P" [e]) HNil s1.
Proof.
  intros G. split.
  - apply (gives_read "O" _ e s HNil s1 HNil _ eq_refl eq_refl G). reflexivity.
  - apply (gives_read "P" _ e s HNil s1 HNil _ eq_refl eq_refl G). reflexivity.
Qed.

(** ** The REPL *)

Lemma print_repr p s :
  exists s', (text <- fresh (PScal (p_repr p));; PRINT text) s = Ok tt s' /\
    st_out s' = st_out s ++ p_repr p ++ [10%N] /\
    adv s (set_out (st_out s) s').
Proof.
  destruct (yields_fresh (PScal (p_repr p)) s) as (v & s1 & E & A & D).
  destruct (output_ok v _ s1 D ltac:(discriminate)) as [_ E2].
  eexists. rewrite (bind_step _ _ _ _ _ E). split; [exact E2|].
  destruct A as (t & d & ->). split.
  - cbn. unfold listing. cbn. rewrite app_nil_r. reflexivity.
  - exists t, d. reflexivity.
Qed.

Definition reply (R : interp) (t : tree hval) : M unit :=
  r <- i_stmt R t;;
  match r with
  | Some v => p <- dread v;; text <- fresh (PScal (p_repr p));; PRINT text;; update_history v
  | None => mret tt
  end.
Definition after_stmt (r : option hval) : M unit :=
  match r with
  | Some v => p <- dread v;; text <- fresh (PScal (p_repr p));; PRINT text;; update_history v
  | None => mret tt
  end.
Lemma reply_eq n t : repl_statement n t = reply (run n) t.
Proof. reflexivity. Qed.
Lemma steady_reply t : steady (fun R => reply R t).
Proof.
  apply (steady_bind (fun R => i_stmt R t) (fun R r => after_stmt r)).
  - apply steady_stmt.
  - intros r. apply steady_const.
Qed.
Lemma replies_eq s sts s' :
  replies s sts s' <-> ends (fun R => mfor (reply R) sts) s tt s'.
Proof. reflexivity. Qed.
Lemma replies_one s t s' : replies s [t] s' <-> ends (fun R => reply R t) s tt s'.
Proof.
  rewrite replies_eq. cbn [mfor].
  rewrite (ends_bind (fun R => reply R t) (fun _ _ => mret tt) _ _ _
             (steady_reply t) (fun _ => steady_const _)).
  split.
  - intros ([] & s2 & E & E2). apply ends_const in E2. injection E2 as <-. exact E.
  - intros E. exists tt, s'. split; [exact E|]. apply ends_const. reflexivity.
Qed.
Lemma replies_cons s t sts s' :
  replies s (t :: sts) s' <-> exists s1, replies s [t] s1 /\ replies s1 sts s'.
Proof.
  rewrite (replies_eq s). cbn [mfor].
  rewrite (ends_bind (fun R => reply R t) (fun R _ => mfor (reply R) sts) _ _ _
             (steady_reply t) (fun _ => steady_for _ _ steady_reply)).
  split.
  - intros ([] & s1 & E1 & E2). exists s1. rewrite replies_one. split; [exact E1|].
    apply replies_eq. exact E2.
  - intros (s1 & E1 & E2). exists tt, s1. rewrite replies_one in E1. split; [exact E1|].
    apply replies_eq in E2. exact E2.
Qed.
Lemma replies_app a : forall s b s',
  replies s (a ++ b) s' <-> exists s1, replies s a s1 /\ replies s1 b s'.
Proof.
  induction a as [|t a IH]; intros s b s'; cbn [Datatypes.app].
  - split; [intros H; exists s; split; [exists O; reflexivity|exact H]|].
    intros (s1 & [n E] & H). injection E as <-. exact H.
  - rewrite replies_cons. split.
    + intros (s1 & E1 & E2). apply IH in E2. destruct E2 as (s2 & E2 & E3).
      exists s2. split; [apply replies_cons; eauto|exact E3].
    + intros (s2 & E1 & E3). apply replies_cons in E1. destruct E1 as (s1 & E1 & E2).
      exists s1. split; [exact E1|]. apply IH. eauto.
Qed.
Lemma replies_command s t s1 : executes s t None s1 -> replies s [t] s1.
Proof.
  intros E. apply replies_one.
  apply (ends_bind (fun R => i_stmt R t) (fun R r => after_stmt r) _ _ _
           (steady_stmt t) (fun _ => steady_const _)).
  exists None, s1. split; [exact E|]. apply ends_const. reflexivity.
Qed.
Lemma replies_value s t v s1 p l :
  executes s t (Some v) s1 -> den (st_heap s1) v p -> history s1 l ->
  exists s2, replies s [t] s2 /\ history s2 (p :: l)
    /\ st_out s2 = st_out s1 ++ p_repr p ++ [10%N] /\ st_in s2 = st_in s1
    /\ forall x q, (forall i, (1 <= i <= 3)%nat -> x <> 36%N :: repeat 95%N i) ->
         var s1 x q -> var s2 x q.
Proof.
  intros E D H. destruct (print_repr p s1) as (s2 & E2 & O2 & A2).
  set (s2' := set_out (st_out s1) s2) in *.
  assert (Sc : st_scopes s2 = st_scopes s1 /\ st_vars s2 = st_vars s1 /\ st_in s2 = st_in s1
               /\ exists t, st_heap s2 = st_heap s1 ++ t).
  { apply adv_only_adds in A2. destruct A2 as (V & S & _ & _ & _ & I & _ & _ & _ & _ & _ & T & _).
    auto. }
  destruct Sc as (S2 & V2 & I2 & T2).
  assert (B2 : forall x o, binding s1 x o -> binding s2 x o).
  { intros x o B. pose proof (adv_binding _ _ x o A2 B) as B'.
    inversion B' as [sc rest Lx Es Lo|Lx Lo]; subst.
    - econstructor; [exact Lx|exact Es].
    - change (binding s2 x (lookup (st_vars s2) x)). now constructor. }
  assert (Dn : forall w q, den (st_heap s1) w q -> den (st_heap s2) w q).
  { intros w q Dw. destruct T2 as [tl ->]. apply den_app. exact Dw. }
  assert (Hd : forall x o, held s1 x o -> held s2 x o).
  { intros x [q|]; cbn [held]; [|apply B2]. intros (w & Bw & Dw). eauto. }
  assert (H2 : history s2 l) by (destruct H as (Ha & Hb & Hc); repeat split; auto).
  destruct (update_keeps s2 v p l H2 (Dn _ _ D)) as (s3 & E3 & H3 & Mv & I3 & O3).
  exists s3. split; [|split; [exact H3|]].
  - apply replies_one.
    apply (ends_bind (fun R => i_stmt R t) (fun R r => after_stmt r) _ _ _
             (steady_stmt t) (fun _ => steady_const _)).
    exists (Some v), s1. split; [exact E|]. apply ends_const. unfold after_stmt.
    rewrite (bind_step _ _ _ _ _ (dread_ok _ _ _ D)).
    apply bind_ok in E2. destruct E2 as (w & s4 & E4 & E5).
    rewrite (bind_step _ _ _ _ _ E4), (bind_step _ _ _ _ _ E5). exact E3.
  - split; [congruence|]. split; [congruence|].
    intros x q N (o & B & Dq). eapply moved_var; [exact Mv| |].
    + intros [X|[X|[X|[]]]]; [apply (N 1%nat)|apply (N 2%nat)|apply (N 3%nat)];
        try lia; rewrite <- X; reflexivity.
    + exists o. split; [apply B2; exact B|]. destruct o as [w|]; [apply Dn; exact Dq|exact Dq].
Qed.

(** *** Reading *)

Lemma joined_snoc a x : joined_lines (a ++ [x]) = joined_lines a ++ x ++ [10%N].
Proof.
  unfold joined_lines. rewrite map_app, concat_app. cbn. rewrite app_nil_r. reflexivity.
Qed.
Lemma read_more_complete code sts lines : complete code sts ->
  read_more lines code = (RCode code sts, lines, 0).
Proof.
  intros (ts & rest & b & E1 & E2). destruct lines; cbn [read_more]; rewrite E1, E2; reflexivity.
Qed.
Lemma read_more_incomplete code l lines : incomplete code ->
  read_more (l :: lines) code
  = let '(r, rest', k) := read_more lines (code ++ l ++ [10%N]) in (r, rest', S k).
Proof.
  intros [E|(ts & b & E1 & E2)]; cbn [read_more]; [rewrite E|rewrite E1, E2]; reflexivity.
Qed.
Lemma read_more_lines more : forall pre rest sts,
  pre <> [] ->
  (forall k, (length pre <= k < length (pre ++ more))%nat ->
             incomplete (joined_lines (firstn k (pre ++ more)))) ->
  complete (joined_lines (pre ++ more)) sts ->
  read_more (more ++ rest) (joined_lines pre)
  = (RCode (joined_lines (pre ++ more)) sts, rest, length more).
Proof.
  induction more as [|x more IH]; intros pre rest sts NE H C.
  - rewrite app_nil_r in C |- *. apply read_more_complete. exact C.
  - cbn [Datatypes.app]. rewrite read_more_incomplete.
    + rewrite <- joined_snoc.
      replace (pre ++ x :: more) with ((pre ++ [x]) ++ more) in * by (rewrite <- app_assoc; reflexivity).
      rewrite (IH (pre ++ [x]) rest sts); [reflexivity|destruct pre; discriminate| |exact C].
      intros k [L1 L2]. apply H. rewrite app_length in L1. split; [lia|exact L2].
    + specialize (H (length pre)). rewrite firstn_app, Nat.sub_diag, firstn_all in H.
      cbn [firstn] in H. rewrite app_nil_r in H. apply H. rewrite app_length. cbn [length]. lia.
Qed.
Lemma loop_reads n k s lines rest sts :
  lines <> [] -> st_in s = lines ++ rest ->
  (forall j, (0 < j < length lines)%nat -> incomplete (joined_lines (firstn j lines))) ->
  complete (joined_lines lines) sts ->
  (forall r, joined_lines lines <> 59%N :: r) ->
  repl_loop n (S k) s
  = (repl_statements n sts;; repl_loop n k)
      (set_in rest (printed (s_ ">> " ++ concat (repeat (s_ ".. ") (length lines - 1))) s)).
Proof.
  intros NE I H C NC. destruct lines as [|l more]; [congruence|].
  cbn [repl_loop].
  assert (Rd : read_code s = Ok (RCode (joined_lines (l :: more)) sts)
    (set_in rest (printed (s_ ">> " ++ concat (repeat (s_ ".. ") (length (l :: more) - 1))) s))).
  { unfold read_code. rewrite I. cbn [Datatypes.app].
    assert (Q : read_more (more ++ rest) (l ++ [c_nl])
                = (RCode (joined_lines (l :: more)) sts, rest, length more)).
    { pose proof (read_more_lines more [l] rest sts ltac:(discriminate)) as Q.
      change (joined_lines [l]) with ((l ++ [10%N]) ++ []) in Q. rewrite app_nil_r in Q.
      apply Q; [|exact C]. intros j L. apply H. cbn [length Datatypes.app] in L |- *. lia. }
    rewrite Q. cbn [length Nat.sub]. rewrite Nat.sub_0_r, app_nil_r. reflexivity. }
  rewrite (bind_step _ _ _ _ _ Rd).
  assert (Cm : command_of (joined_lines (l :: more)) = CmdNone).
  { destruct (joined_lines (l :: more)) as [|c r] eqn:E; [reflexivity|].
    assert (c <> 59%N) by (intros ->; exact (NC r eq_refl)).
    unfold command_of. destruct c as [|p]; [reflexivity|].
    repeat (destruct p as [p|p|]; try reflexivity). congruence. }
  rewrite Cm. reflexivity.
Qed.
Lemma statements_replies s sts s' n :
  mfor (repl_statement n) sts s = Ok tt s' -> repl_statements n sts s = Ok tt s'.
Proof. intros E. unfold repl_statements. rewrite E. reflexivity. Qed.

(** *** Scopes *)

Lemma reply_scopes n sts : steps scope_rel unit (mfor (repl_statement n) sts)
                                 (mfor (repl_statement n) sts).
Proof.
  apply (r_mfor _ scope_closed). intros t. unfold repl_statement.
  pose proof (run_related _ scope_closed n) as HR.
  apply (cl_bind _ scope_closed); [apply (re_stmt _ _ _ HR)|]. intros [v|].
  - apply (cl_bind _ scope_closed); [apply (cl_dread _ scope_closed)|]. intros p.
    apply (cl_bind _ scope_closed); [apply (cl_fresh _ scope_closed)|]. intros text.
    apply (cl_bind _ scope_closed); [apply (r_PRINT _ scope_closed)|]. intros _.
    apply (r_update_history _ scope_closed).
  - apply (cl_ret _ scope_closed).
Qed.
Lemma replies_scopes s sts s' sc rest :
  replies s sts s' -> st_scopes s = sc :: rest -> st_swallowed s' = st_swallowed s ->
  exists vars, st_scopes s' = mkscope (sc_fun sc) vars :: rest /\ st_depth s' = st_depth s.
Proof.
  intros [n E] Es Sw. pose proof (reply_scopes n sts s) as H. rewrite E in H.
  destruct H as [_ H]. rewrite Es in H. destruct H as (x & vars & E1 & D & N).
  rewrite (N eq_refl Sw) in *. exists vars. split; [exact E1|]. cbn in D. lia.
Qed.
Lemma statements_scopes n sts s s' sc rest :
  repl_statements n sts s = Ok tt s' -> st_scopes s = sc :: rest ->
  exists extra vars, st_scopes s' = extra ++ mkscope (sc_fun sc) vars :: rest
    /\ st_depth s' = (st_depth s + Z.of_nat (length extra))%Z.
Proof.
  intros E Es. pose proof (reply_scopes n sts s) as H. unfold repl_statements in E.
  assert (G : exists b, scope_rel b s s').
  { destruct (mfor (repl_statement n) sts s) as [[] s1|e s1|].
    - injection E as <-. eauto.
    - destruct e as [|[]|]; try discriminate; injection E as <-; eauto.
    - discriminate. }
  destruct G as [b [_ G]]. rewrite Es in G. destruct G as (x & vars & E1 & D & _). eauto.
Qed.
Lemma call_fails_scopes n f args s e s' :
  i_call (run n) f args s = Err e s' ->
  exists extra, st_scopes s' = extra ++ st_scopes s
    /\ st_depth s' = (st_depth s + Z.of_nat (length extra))%Z.
Proof.
  destruct n as [|n]; [discriminate|]. cbn [run step i_call]. unfold call. intros H.
  unfold mbind at 1 in H.
  destruct (new_scope f args s) as [sc s0|e0 s0|] eqn:E0; try discriminate.
  - assert (S0 : st_scopes s0 = st_scopes s /\ st_depth s0 = st_depth s).
    { unfold new_scope, mbind, mret in E0.
      destruct (copies args s) as [cp s1|e1 s1|] eqn:E1; try discriminate.
      unfold new_list, alloc, mbind, mret in E0. injection E0 as _ E0. subst s0. simpl.
      clear - E1. revert s cp s1 E1. unfold copies.
      induction args as [|a args IH]; cbn [mmap]; intros s cp s1 E.
      - injection E as _ E. subst. auto.
      - unfold mbind, mret in E. unfold copy at 1 in E.
        destruct (copy_val _ a _) as [[a' h]|]; try discriminate.
        destruct (mmap copy args _) as [ys s2|e2 s2|] eqn:E2; try discriminate.
        injection E as _ E. subst s2. exact (IH _ _ _ E2). }
    destruct S0 as (Q1 & Q2).
    set (body := match f with HBlock sts ret => _ | _ => _ end) in H.
    assert (Hm : steps scope_rel hval body body).
    { unfold body. pose proof (run_related _ scope_closed n) as HR.
      destruct f; try (intros z; apply scope_refl).
      apply (cl_bind _ scope_closed).
      - apply (r_run_stmts _ scope_closed _ _ HR).
      - intros _. apply (r_rval_tree _ scope_closed _ _ HR). }
    unfold in_scope, mbind, push_scope, pop_scope, mret in H.
    set (s1 := set_scopes _ _ _) in H. specialize (Hm s1).
    destruct (body s1) as [v2 s2|e2 s2|]; try discriminate.
    + destruct Hm as [_ (x & vs & E & _)].
      destruct (st_scopes s2); [|discriminate]. destruct x; discriminate.
    + injection H as <- <-. destruct Hm as [_ (x & vs & E & D & _)].
      exists (x ++ [mkscope (sc_fun sc) vs]). rewrite <- Q1.
      split; [rewrite E, <- app_assoc; reflexivity|].
      rewrite app_length. cbn [length]. rewrite D. cbn [s1 set_scopes st_depth]. lia.
  - injection H as <- <-.
    pose proof (r_new_scope _ scope_closed f args s) as Hn. rewrite E0 in Hn. exists [].
    assert (S0 : st_scopes s0 = st_scopes s /\ st_depth s0 = st_depth s).
    { clear Hn. unfold new_scope, mbind, mret in E0.
      destruct (copies args s) as [cp s1|e1 s1|] eqn:E1; try discriminate.
      injection E0 as <- <-.
      clear - E1. revert s e1 s1 E1. unfold copies.
      induction args as [|a args IH]; cbn [mmap]; intros s e1 s1 E; [discriminate|].
      unfold mbind, mret in E. unfold copy at 1 in E.
      destruct (copy_val _ a _) as [[a' h]|].
      - destruct (mmap copy args _) as [ys s2|e2 s2|] eqn:E2; try discriminate.
        injection E as _ E. subst s2. exact (IH _ _ _ E2).
      - injection E as _ E. subst. auto. }
    destruct S0 as [-> ->]. split; [reflexivity|]. cbn. lia.
Qed.

(** The whole session. *)
Lemma loop_scopes n k : forall s b s' sc rest,
  repl_loop n k s = Ok b s' -> st_scopes s = sc :: rest ->
  exists extra vars, st_scopes s' = extra ++ mkscope (sc_fun sc) vars :: rest.
Proof.
  induction k as [|k IH]; intros s b s' sc rest E Es; [discriminate|].
  cbn [repl_loop] in E.
  assert (Rd : exists r s1, read_code s = Ok r s1 /\ st_scopes s1 = sc :: rest).
  { unfold read_code. destruct (st_in s) as [|l ls]; [eauto|].
    destruct (read_more ls (l ++ [c_nl])) as [[r rs] j]. eauto. }
  destruct Rd as (r & s1 & E1 & Es1). rewrite (bind_step _ _ _ _ _ E1) in E.
  assert (Same : st_scopes s1 = sc :: rest ->
     exists extra vars, st_scopes s1 = extra ++ mkscope (sc_fun sc) vars :: rest).
  { intros Q. exists [], (sc_vars sc). rewrite Q. destruct sc; reflexivity. }
  destruct r as [code sts| |e|].
  - assert (G : forall m, (exists s2, m s1 = Ok tt s2 /\ st_scopes s2 = sc :: rest) ->
       (m;; repl_statements n sts;; repl_loop n k) s1 = Ok b s' ->
       exists extra vars, st_scopes s' = extra ++ mkscope (sc_fun sc) vars :: rest).
    { intros m (s2 & E2 & Es2) F. rewrite (bind_step _ _ _ _ _ E2) in F.
      apply bind_ok in F. destruct F as ([] & s3 & E3 & F).
      destruct (statements_scopes _ _ _ _ _ _ E3 Es2) as (x & vars & Es3 & _).
      destruct x as [|sc' x].
      - exact (IH _ _ _ _ _ F Es3).
      - destruct (IH _ _ _ _ _ F Es3) as (x' & vars' & Es').
        exists (x' ++ mkscope (sc_fun sc') vars' :: x), vars.
        rewrite Es', <- app_assoc. reflexivity. }
    destruct (command_of code) as [| |on|].
    + apply bind_ok in E. destruct E as ([] & s2 & E2 & E). injection E2 as <-.
      injection E as <- <-. exact (Same Es1).
    + refine (G _ _ E). eexists. split; [reflexivity|exact Es1].
    + refine (G _ _ E). eexists. split; [reflexivity|exact Es1].
    + refine (G _ _ E). exists s1. split; [reflexivity|exact Es1].
  - exact (IH _ _ _ _ _ E Es1).
  - discriminate.
  - injection E as <- <-. exact (Same Es1).
Qed.

(** ** Arguments from standard input *)

Definition map_out {A} (f : state -> state) (r : outcome A) : outcome A :=
  match r with Ok a s => Ok a (f s) | Err e s => Err e (f s) | Fuel => Fuel end.
(** Computations for which the input makes no difference. *)
Definition blind {A} (m : M A) : Prop := forall s l, m (set_in l s) = map_out (set_in l) (m s).
Lemma blind_ret {A} (a : A) : blind (mret a).
Proof. intros s l. reflexivity. Qed.
Lemma blind_bind {A B} (m : M A) (f : A -> M B) :
  blind m -> (forall a, blind (f a)) -> blind (mbind m f).
Proof.
  intros Hm Hf s l. unfold mbind. rewrite Hm. destruct (m s) as [a s1|e s1|]; try reflexivity.
  apply Hf.
Qed.
Lemma blind_fresh p : blind (fresh p).
Proof. intros s l. unfold fresh. cbn. destruct (alloc_val p (st_heap s)). reflexivity. Qed.
Lemma blind_copy v : blind (copy v).
Proof.
  intros s l. unfold copy. cbn [set_in st_heap].
  destruct (copy_val _ v (st_heap s)) as [[]|]; reflexivity.
Qed.
Lemma blind_mmap {A B} (f : A -> M B) l : (forall a, blind (f a)) -> blind (mmap f l).
Proof.
  intros H. induction l as [|a l IH]; cbn [mmap]; [apply blind_ret|].
  apply blind_bind; [apply H|]. intros b. apply blind_bind; [exact IH|].
  intros bs. apply blind_ret.
Qed.
Lemma blind_wipe : blind wipe_globals.
Proof.
  unfold wipe_globals. generalize global_table. intros tbl.
  apply blind_bind.
  { apply blind_mmap. intros [x p]. apply blind_bind; [apply blind_fresh|].
    intros v. apply blind_ret. }
  intros cs. apply blind_bind; [intros s l; reflexivity|]. intros args.
  apply blind_bind; [apply blind_mmap; apply blind_copy|]. intros cp.
  apply blind_bind; [intros s l; reflexivity|]. intros g.
  apply blind_bind; [intros s l; reflexivity|]. intros main.
  intros s l. reflexivity.
Qed.

Lemma blind_keeps {A} (m : M A) s a s' : blind m -> m s = Ok a s' -> st_in s' = st_in s.
Proof.
  intros B E. specialize (B s (st_in s)).
  assert (Q : set_in (st_in s) s = s) by (destruct s; reflexivity).
  rewrite Q, E in B. cbn [map_out] in B. apply AliasStart.ok_same in B. rewrite B. reflexivity.
Qed.
Lemma blind_reads (F : list str -> M unit) (m : M unit) s s1 :
  blind m -> m s = Ok tt s1 ->
  (m;; raw <- read_all;; F raw) s = (m;; raw <- mret (st_in s);; F raw) (set_in [] s).
Proof.
  intros B E. pose proof (blind_keeps _ _ _ _ B E) as I.
  unfold mbind. rewrite (B s []), E. cbn [map_out]. unfold read_all, mret. rewrite I. reflexivity.
Qed.

Lemma readlines_eq n o input program sts :
  op_readlines o = true -> complete program sts ->
  pip_main n o input program = pip_main n (given o (w_in input)) (mkworld [] (w_rand input)) program.
Proof.
  intros Rl (ts & rest & b & E1 & E2). unfold pip_main. rewrite E1, E2, Rl.
  change (op_readlines (given o (w_in input))) with false.
  change (op_exec_args (given o (w_in input))) with (op_exec_args o).
  change (op_args (given o (w_in input))) with (w_in input).
  change (list_format (given o (w_in input))) with (list_format o).
  change (warnings_on (given o (w_in input))) with (warnings_on o).
  set (fmt := list_format o). set (w := warnings_on o).
  generalize (AliasStart.first_ok fmt w input). unfold init_state.
  generalize (AliasStart.first fmt w input). generalize blind_wipe. generalize wipe_globals.
  intros m B s1 E.
  exact (blind_reads (fun raw => args <- (if op_exec_args o then mmap (exec_arg n) raw
                                          else fresh_all (map PScal raw));;
                                 exec_program n sts args)
                     m (blank_state fmt w input None) s1 B E).
Qed.

Lemma session_scopes n o input b s' :
  repl n o input = Ok b s' ->
  exists extra vars, st_scopes s' = extra ++ [mkscope None vars].
Proof.
  unfold repl. set (fmt := list_format o). set (w := warnings_on o).
  generalize (AliasStart.first_ok fmt w input). unfold init_state.
  generalize (proj1 (AliasStart.first_rest fmt w input)).
  generalize (AliasStart.first fmt w input). generalize (blank_state fmt w input None).
  generalize wipe_globals. intros m s0 s1 Es E1 E.
  rewrite (bind_step _ _ _ _ _ E1) in E.
  apply bind_ok in E. destruct E as (u & s2 & E2 & E). injection E2 as _ <-.
  exact (loop_scopes n _ _ _ _ _ _ E Es).
Qed.
