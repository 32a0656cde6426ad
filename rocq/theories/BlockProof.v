(** * Printed code means the same (C40) *)

From Coq Require Import String List NArith ZArith Bool Arith Lia.
From Verif Require Import PyStr PyRe Tokens OpFun OpTable Scan Parse Unparse PTypes Heap Exec
                          StrFacts SpecScan SpecSyntax SpecHeap SpecVars SpecRepr SpecBlock.
From Verif Require Import LexProof LexProof2 LexProof3.
From Verif Require Import UnparseProof.
From Verif Require Import Ops Apply.
From Verif Require ScanProof ReprProof ParseEq HeapProof VarProof MainProof.
Import ListNotations.
Local Open Scope string_scope.
Local Open Scope list_scope.
Local Open Scope nat_scope.

(** ** The code that is read is the printed code with more parentheses *)

Fixpoint revalue (t : tree hval) : tree pval :=
  match t with
  | TTok k => TTok k
  | TVal _ => TVal PNil
  | TOpr o => TOpr o
  | TApp o args => TApp o (map revalue args)
  | TBlk sts => TBlk (map revalue sts)
  | TCmd c args => TCmd c (map revalue args)
  end.

Definition same_text (t : tree pval) (u : tree hval) : Prop :=
  text (revalue u) = text t /\ forall h, dent h u (revalue u).
Definition wrapped (t : tree pval) : Prop :=
  reread PNil t (wrap t) /\ same_text t (wrap t) /\ needs_parens (revalue (wrap t)) = needs_parens t.

Lemma wrapped_list es : Forall wrapped es ->
  rereads PNil es (map wrap es) /\ map text (map revalue (map wrap es)) = map text es
  /\ forall h, dents h (map wrap es) (map revalue (map wrap es)).
Proof.
  induction 1 as [|t es (R & (T & D) & _) _ (RR & TT & DD)]; [repeat split; constructor|].
  cbn [map]. split; [constructor; assumption|]. split; [rewrite T, TT; reflexivity|].
  intros h. constructor; auto.
Qed.
Lemma wrapped_operand t : wrapped t ->
  reread PNil t (owrap t) /\ (forall h, dent h (owrap t) (revalue (owrap t)))
  /\ otext (revalue (owrap t)) = otext t.
Proof.
  intros (R & (T & D) & Np). unfold owrap, otext, operand_str. cbn [fst snd].
  destruct (needs_parens t) eqn:E.
  - destruct t as [| | |o a| |]; try discriminate E. split; [|split].
    + cbn [wrap] in R |- *. revert R. generalize (map (fun x => if negb (bracket_op o) && needs_parens x
        then TApp op_paren [wrap x] else wrap x) a). intros b R.
      inversion R as [| | |o' a' b' Rs| | |o' a' b' Rs]; subst; [constructor; exact Rs|discriminate E].
    + intros h. cbn [revalue map]. constructor. constructor; [apply D|constructor].
    + cbn [revalue map]. change (needs_parens (TApp op_paren [revalue (wrap (TApp o a))])) with false. cbv iota.
      rewrite text_paren, T. reflexivity.
  - split; [exact R|]. split; [exact D|]. rewrite Np. exact T.
Qed.
Lemma wrapped_operands es : Forall wrapped es ->
  rereads PNil es (map owrap es) /\ (forall h, dents h (map owrap es) (map revalue (map owrap es)))
  /\ map otext (map revalue (map owrap es)) = map otext es.
Proof.
  induction 1 as [|t es W _ (RR & DD & TT)]; [repeat split; constructor|].
  destruct (wrapped_operand t W) as (R & D & T). cbn [map].
  split; [constructor; assumption|]. split; [intros h; constructor; auto|]. rewrite T, TT. reflexivity.
Qed.

Lemma app_bracket_text o es fs : bracket_op o = true -> map text es = map text fs ->
  text (TApp o es) = text (TApp o fs).
Proof.
  intros B E. unfold text in *. cbn [unparse_node]. unfold unparse_app. cbv zeta.
  rewrite !(map_map (fun x => (x, unparse_node p_repr x)) snd). cbn [snd].
  rewrite E. unfold bracket_op in B. cbn [existsb] in B.
  destruct (str_eqb (o_text o) (s_ "PAREN")); [reflexivity|].
  destruct (str_eqb (o_text o) (s_ "BLOCK")); [reflexivity|].
  destruct (str_eqb (o_text o) (s_ "SEND")); [reflexivity|].
  destruct (str_eqb (o_text o) (s_ "LIST")); [reflexivity|discriminate].
Qed.
Lemma app_op_text o es fs : bracket_op o = false -> map otext es = map otext fs ->
  text (TApp o es) = text (TApp o fs).
Proof.
  intros B E. unfold text in *. cbn [unparse_node]. unfold unparse_app. cbv zeta.
  assert (X : forall l, map operand_str (map (fun x => (x, unparse_node p_repr x)) l) = map otext l)
    by (intros l; rewrite map_map; reflexivity).
  rewrite !X, E. unfold bracket_op in B. cbn [existsb] in B.
  destruct (str_eqb (o_text o) (s_ "PAREN")); [discriminate|].
  destruct (str_eqb (o_text o) (s_ "BLOCK")); [discriminate|].
  destruct (str_eqb (o_text o) (s_ "SEND")); [discriminate|].
  destruct (str_eqb (o_text o) (s_ "LIST")); [discriminate|]. reflexivity.
Qed.

Lemma wrapped_app o es : Forall wrapped es -> wrapped (TApp o es).
Proof.
  intros F. unfold wrapped, same_text. destruct (bracket_op o) eqn:B.
  - rewrite (wrap_bracket o es B). destruct (wrapped_list es F) as (R & T & D). cbn [revalue].
    split; [constructor; exact R|]. split; [|reflexivity]. split; [|intros h; constructor; apply D].
    apply app_bracket_text; assumption.
  - rewrite (wrap_op o es B). destruct (wrapped_operands es F) as (R & D & T). cbn [revalue].
    split; [constructor; exact R|]. split; [|reflexivity]. split; [|intros h; constructor; apply D].
    apply app_op_text; assumption.
Qed.
Lemma wrapped_blk sts : Forall wrapped sts -> wrapped (TBlk sts).
Proof.
  intros F. unfold wrapped, same_text. destruct (wrapped_list sts F) as (R & T & D). cbn [wrap revalue].
  split; [constructor; exact R|]. split; [|reflexivity]. split; [|intros h; constructor; apply D].
  unfold text at 1 2. cbn [unparse_node]. f_equal. f_equal.
  assert (X : forall l : list (tree pval), map (fun x => unparse_node p_repr x ++ s_ "; ") l
              = map (fun x => x ++ s_ "; ") (map text l))
    by (intros l; rewrite map_map; reflexivity).
  rewrite !X, T. reflexivity.
Qed.
Lemma wrapped_cmd c args : Forall wrapped args -> wrapped (TCmd c args).
Proof.
  intros F. unfold wrapped, same_text. destruct (wrapped_list args F) as (R & T & D). cbn [wrap revalue].
  split; [constructor; exact R|]. split; [|reflexivity]. split; [|intros h; constructor; apply D].
  rewrite !text_cmd, T. reflexivity.
Qed.
Lemma wrapped_tok k : wrapped (TTok k).
Proof. repeat split; intros; constructor. Qed.
Lemma wrapped_opr o : wrapped (TOpr o).
Proof. repeat split; intros; constructor. Qed.

Lemma wrapped_nil : wrapped (TVal PNil).
Proof. repeat split; intros; constructor. Qed.

Lemma code_wrapped :
  (forall t, printable t -> wrapped t)
  /\ (forall es, all_printable es -> Forall wrapped es)
  /\ (forall ls, links ls -> Forall wrapped ls)
  /\ (forall t, statement t -> wrapped t)
  /\ (forall sts, code sts -> Forall wrapped sts)
  /\ (forall tys args, arguments tys args -> Forall wrapped args)
  /\ (forall t, loop_variable t -> wrapped t)
  /\ (forall es, loop_variables es -> Forall wrapped es).
Proof.
  apply printable_all; intros;
    try apply wrapped_app; try apply wrapped_cmd; try apply wrapped_tok; try apply wrapped_nil; try assumption;
    repeat (apply Forall_cons; [auto using wrapped_opr, wrapped_blk|]); auto.
Qed.

(** ** The text of a block is one expression *)

Definition block_tree (sts : list (tree pval)) : tree pval := TApp op_block [TBlk sts].

Lemma printed_scan t (w : str) : printable t -> Forall (fun c => c = 10%N) w ->
  scan (text t ++ w) = ScanOk (program (toks t)) [].
Proof.
  intros P F. destruct (proj1 code_read t P) as [(c & r & E & NS & NC) R].
  apply ScanProof.scan_reads. unfold framed.
  change (10%N :: (text t ++ w) ++ [10%N]) with ([10%N] ++ (text t ++ w) ++ [10%N]).
  change (toks t) with (@nil token ++ toks t). rewrite <- app_assoc.
  eapply ReprProof.reads_app'.
  - apply ReprProof.gap_newlines; [discriminate|repeat constructor|]. intros d q E'. rewrite E in E'.
    injection E' as <- _. auto.
  - rewrite <- (app_nil_r (toks t)).
    assert (Sw : after_ok (w ++ [10%N])).
    { destruct w as [|x q]; [|inversion F; subst]; apply after_in; cbn; tauto. }
    assert (Nw : w ++ [10%N] <> []) by (destruct w; discriminate).
    assert (Fw : Forall (fun c => c = 10%N) (w ++ [10%N])) by (apply Forall_app; split; [exact F|repeat constructor]).
    eapply ReprProof.reads_app'.
    + apply R. exact Sw.
    + rewrite <- (app_nil_r (w ++ [10%N])). apply ReprProof.gap_newlines; [exact Nw|exact Fw|discriminate].
Qed.

Lemma printed_parse t : printable t -> parse_program (V := hval) (program (toks t)) = POk [wrap t] [None].
Proof.
  intros P. destruct (expr_statement t (proj1 code_parsed t P)) as [(k & q & Ets & N1 & N2) Ps].
  unfold parse_program, parse_fuel, program. rewrite app_length, map_length. cbn [length].
  replace (10 * (length (toks t) + 1) + 10) with (S (S (10 * length (toks t) + 18))) by lia.
  assert (EL : map Some (toks t) ++ [None] = Some k :: map Some q ++ [None]) by (rewrite Ets; reflexivity).
  specialize (Ps (S (10 * length (toks t) + 18)) None [] (or_intror (conj I eq_refl)) ltac:(lia)).
  rewrite EL in Ps |- *. rewrite ParseEq.parse_eq.
  destruct (str_eqb (t_text k) (s_ "}")) eqn:Eb; [apply str_eqb_eq in Eb; congruence|].
  rewrite Ps. reflexivity.
Qed.

(** ** The Block that is read back *)

Scheme reread_mind := Minimality for reread Sort Prop with rereads_mind := Minimality for rereads Sort Prop.
Combined Scheme reread_both from reread_mind, rereads_mind.

(** Both kinds of trees have the same shape. *)
Lemma dent_reread h :
  (forall (t : tree pval) (t' : tree hval), reread PNil t t' -> forall u, dent h u t -> reread HNil u t')
  /\ (forall (l : list (tree pval)) (l' : list (tree hval)), rereads PNil l l' ->
        forall u, dents h u l -> rereads HNil u l').
Proof.
  apply (reread_both pval hval PNil (fun t t' => forall u, dent h u t -> reread HNil u t')
           (fun l l' => forall u, dents h u l -> rereads HNil u l')).
  - intros k u D. inversion D; subst. constructor.
  - intros u D. inversion D as [|v p Dv| | | |]; subst. inversion Dv; subst. constructor.
  - intros o u D. inversion D; subst. constructor.
  - intros o a b _ IH u D. inversion D; subst. constructor. auto.
  - intros a b _ IH u D. inversion D; subst. constructor. auto.
  - intros c a b _ IH u D. inversion D; subst. constructor. auto.
  - intros o a b _ IH u D. inversion D; subst. constructor. auto.
  - intros u D. inversion D; subst. constructor.
  - intros a b l m _ IH _ IHs u D. inversion D; subst. constructor; auto.
Qed.

Lemma printable_expr t : printable t -> tree_is_expr (wrap t) = true.
Proof.
  destruct 1 as [k (K & _)| | | | | | | | | |]; try reflexivity. cbn [wrap tree_is_expr].
  cbn in K. repeat (destruct K as [<-|K]; [reflexivity|]). destruct K.
Qed.

Lemma block_value ts ret R s : tree_is_expr ret = true ->
  i_eval (Exec.step (Exec.step R)) (TApp op_block [TBlk (ts ++ [ret])]) s = Ok (XR (HBlock ts ret)) s.
Proof.
  intros E. change (eval_op R op_block [ATree (TBlk (ts ++ [ret]))] s = Ok (XR (HBlock ts ret)) s).
  assert (K : mk_block (ts ++ [ret]) = HBlock ts ret).
  { unfold mk_block. rewrite rev_app_distr. cbn [rev Datatypes.app]. rewrite E, rev_involutive. reflexivity. }
  rewrite <- K. reflexivity.
Qed.

Lemma block_printed sts ret h u r : code sts -> printable ret -> tidy (sts ++ [ret]) ->
  den h (HBlock u r) (PBlock sts ret) ->
  exists ts u' r',
    scan (p_repr (PBlock sts ret) ++ [10%N]) = ScanOk (program ts) []
    /\ parse_program (V := hval) (program ts) = POk [TApp op_block [TBlk (u' ++ [r'])]] [None]
    /\ tree_is_expr r' = true /\ rereads HNil u u' /\ reread HNil r r'
    /\ forall h', exists sts' ret', den h' (HBlock u' r') (PBlock sts' ret')
                                    /\ p_repr (PBlock sts' ret') = p_repr (PBlock sts ret).
Proof.
  intros Cs Pr T D. inversion D as [| | | |sts0 r0 sts1 r1 Ds Dr|]; subst.
  assert (Call : code (sts ++ [ret])).
  { clear -Cs Pr. revert Cs. induction sts as [|t sts IH]; intros Cs; cbn [Datatypes.app].
    - constructor; [constructor; exact Pr|constructor].
    - inversion Cs; subst. constructor; auto. }
  set (b := TApp op_block [TBlk (sts ++ [ret])]).
  assert (Pb : printable b) by (constructor; assumption).
  assert (Tx : forall l x, p_repr (PBlock l x) = text (TApp op_block [TBlk (l ++ [x])])).
  { intros l x. rewrite text_block. unfold text. cbn [unparse_node p_repr]. rewrite map_app, concat_app.
    cbn [map concat]. rewrite app_nil_r. reflexivity. }
  assert (F : Forall wrapped (sts ++ [ret])) by (apply (proj1 (proj2 (proj2 (proj2 (proj2 code_wrapped)))) _ Call)).
  apply Forall_app in F. destruct F as [Fs Fr]. inversion Fr as [|? ? Wr _]; subst.
  destruct (wrapped_list sts Fs) as (Rs & Ts & Dw). destruct Wr as (Rr & (Tr & Dwr) & _).
  exists (toks b), (map wrap sts), (wrap ret).
  split; [rewrite Tx; apply printed_scan; [exact Pb|repeat constructor]|].
  split. { rewrite (printed_parse b Pb). unfold b. rewrite (wrap_bracket op_block _ eq_refl). cbn [map wrap].
           rewrite map_app. reflexivity. }
  split; [apply printable_expr, Pr|].
  split; [apply (proj2 (dent_reread h) _ _ Rs _ Ds)|]. split; [apply (proj1 (dent_reread h) _ _ Rr _ Dr)|].
  intros h'. exists (map revalue (map wrap sts)), (revalue (wrap ret)).
  split; [constructor; auto|]. rewrite !Tx, !text_block. f_equal. f_equal.
  assert (X : forall l : list (tree pval), text (TBlk l) = strip (cls_in (s_ "; ")) (sepd (map text l))).
  { intros l. unfold text, sepd. cbn [unparse_node]. rewrite map_map. reflexivity. }
  rewrite !X, !map_app, Ts. cbn [map]. rewrite Tr. reflexivity.
Qed.

Lemma repr_gives s e v s1 p : gives s e v s1 -> den (st_heap s1) v p ->
  exists w t, gives s (SpecVars.app "RP" [e]) w (HeapProof.grow t s1)
    /\ den (st_heap (HeapProof.grow t s1)) w (PScal (p_repr p)).
Proof.
  intros G D. destruct (HeapProof.fresh_ok (PScal (p_repr p)) s1) as (w & t & E & Dw & _).
  exists w, t. split; [|exact Dw].
  destruct (op_by_arity 1 (s_ "RP")) as [o|] eqn:Eo; [|discriminate Eo].
  apply (MainProof.gives_read "RP" o e s v s1 w _ Eo); [vm_compute in Eo; injection Eo as <-; reflexivity|exact G|].
  intros R. assert (Fo : o_fun o = F_REPR) by (vm_compute in Eo; injection Eo as <-; reflexivity). rewrite Fo.
  change (pure_call F_REPR [AVal (XR v)] s1 = Ok (XR w) (HeapProof.grow t s1)).
  unfold pure_call. rewrite (VarProof.bind_step _ _ s1 [v] s1 eq_refl).
  assert (Dr : mmap dread [v] s1 = Ok [p] s1)
    by (cbn [mmap]; rewrite (VarProof.bind_step _ _ _ _ _ (HeapProof.dread_ok _ _ _ D)); reflexivity).
  rewrite (VarProof.bind_step _ _ _ _ _ Dr). rewrite (VarProof.bind_step get_fmt _ s1 (st_fmt s1) s1 eq_refl).
  change (pure_fun (st_fmt s1) F_REPR [p]) with (Some (op_REPR p)). cbv iota.
  rewrite (VarProof.bind_step (of_pm (op_REPR p)) _ s1 (PScal (p_repr p)) s1 eq_refl).
  change (OpsSeq.regex_hits F_REPR [p]) with (@nil OpsSeq.hit).
  rewrite (VarProof.bind_step (mfor assign_hit []) _ s1 tt s1 eq_refl).
  rewrite (VarProof.bind_step _ _ _ _ _ E). reflexivity.
Qed.

Lemma block_back s e u r s1 sts ret :
  gives s e (HBlock u r) s1 -> den (st_heap s1) (HBlock u r) (PBlock sts ret) ->
  code sts -> printable ret -> tidy (sts ++ [ret]) ->
  exists u' r' s2, gives s (SpecVars.app "V" [SpecVars.app "RP" [e]]) (HBlock u' r') s2
    /\ only_adds s1 s2 /\ rereads HNil u u' /\ reread HNil r r'
    /\ exists sts' ret', den (st_heap s2) (HBlock u' r') (PBlock sts' ret')
                         /\ p_repr (PBlock sts' ret') = p_repr (PBlock sts ret).
Proof.
  intros G D Cs Pr T. destruct (repr_gives _ _ _ _ _ G D) as (w & t & Gw & Dw).
  destruct (block_printed sts ret _ u r Cs Pr T D) as (ts & u' & r' & Sc & P & X & Ru & Rr & K).
  exists u', r', (HeapProof.grow t s1). split.
  - eapply (ReprProof.eval_text s _ w _ _ _ [] _ _ _ Gw Dw Sc P); [reflexivity|].
    apply VarProof.gives_evals. eexists (XR (HBlock u' r')), _. split; [|reflexivity].
    exists 2. apply (block_value u' r' (run 0) _ X).
  - split; [repeat split; try reflexivity; [exists t; reflexivity|exists []; rewrite app_nil_r; reflexivity]|].
    split; [exact Ru|]. split; [exact Rr|]. apply K.
Qed.
