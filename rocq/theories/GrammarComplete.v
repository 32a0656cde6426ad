(** * What the grammar derives is what the parser returns *)

From Coq Require Import String List NArith ZArith Bool Arith Lia.
From Verif Require Import PyStr StrFacts Tokens OpFun OpTable Parse ParseEq ParseMono SpecScan SpecRepr.
From Verif Require Import SpecGrammar TemplateProof GrammarProof GrammarSound.
From Verif Require SpecSyntax ParseProof ScanProof.
Import ListNotations.
Local Open Scope string_scope.
Local Open Scope list_scope.
Local Open Scope Z_scope.

(** ** First tokens *)

Lemma program_cons t l : program (t :: l) = Some t :: program l.
Proof. reflexivity. Qed.

Lemma program_any l : exists k ts, program l = k :: ts.
Proof. destruct l; eexists; eexists; reflexivity. Qed.

Lemma text_not_sym t w : token_text t -> In w symbols -> t <> sym w -> str_eqb (t_text t) (s_ w) = false.
Proof.
  intros T I N. apply not_true_iff_false. rewrite str_eqb_eq. intros E. apply N. apply symbol_tok; auto.
Qed.

Lemma head_not_sym l w : toks l -> In w symbols -> hd_error l <> Some (sym w) -> head_is (program l) w = false.
Proof.
  intros T I N. rewrite head_program. destruct l as [|t l]; [reflexivity|]. inversion T; subst.
  apply text_not_sym; auto. intros ->. apply N. reflexivity.
Qed.

Lemma starter_not_sym t w : starter t -> In w [")"; "]"; "}"; ";"; "EL"] -> t <> sym w.
Proof.
  intros S I ->. unfold starter in S. cbn in S.
  destruct S as [S|[S|(s & o & S & _)]]; [intuition discriminate| |discriminate].
  cbn in I. decompose [or] I; subst; try contradiction; intuition discriminate.
Qed.

Lemma starter_not_mark t w : token_text t -> starter t -> w = "*" \/ w = ":" -> str_eqb (t_text t) (s_ w) = false.
Proof.
  intros T S W. apply not_true_iff_false. rewrite str_eqb_eq. intros E.
  assert (X : exists o, In o all_ops /\ o_text o = s_ w /\ op_by_arity 1 (s_ w) = None).
  { assert (Y : exists o, op_by_arity 2 (s_ w) = Some o /\ op_by_arity 1 (s_ w) = None).
    { destruct W as [-> | ->].
      - destruct (op_by_arity 2 (s_ "*")) as [o|] eqn:Q; [|discriminate Q]. exists o. split; reflexivity.
      - destruct (op_by_arity 2 (s_ ":")) as [o|] eqn:Q; [|discriminate Q]. exists o. split; reflexivity. }
    destruct Y as (o & Y & Z). destruct (in_table _ _ _ Y) as (I & J & _). exists o. auto. }
  destruct X as (o & I & O & U).
  assert (K : t = Tok KOperator (s_ w)) by (rewrite <- O; apply operator_tok; congruence).
  subst t. destruct S as [S|[S|(s & p & S & Q)]].
  - cbn in S. intuition discriminate.
  - cbn in S. intuition discriminate.
  - injection S as <-. congruence.
Qed.

Lemma starter_kind t : starter t -> t_kind t <> KCommand.
Proof.
  intros [S|[S|(s & o & -> & _)]] E; [| |discriminate E].
  - rewrite E in S. cbn in S. intuition discriminate.
  - cbn in S. intuition (subst; discriminate).
Qed.

Section Complete.
  Context {V : Type}.
  Local Notation tr := (tree V).
  Local Notation ev := (@ParseMono.ev _).

  Lemma expr_hd (e : tr) te rest : expr e te -> toks (te ++ rest) ->
    exists t te', te = t :: te' /\ starter t /\ token_text t.
  Proof.
    intros E T. destruct (expr_starts _ _ E) as (t & te' & -> & S). exists t, te'. inversion T; subst. auto.
  Qed.

  Lemma expr_no_mark (e : tr) te rest w : expr e te -> toks (te ++ rest) -> w = "*" \/ w = ":" ->
    head_is (program (te ++ rest)) w = false.
  Proof.
    intros E T W. destruct (expr_hd _ _ _ E T) as (t & te' & -> & S & Tt).
    cbn [app]. rewrite program_cons, ParseProof.head_is_some. apply starter_not_mark; auto.
  Qed.

  (** ** One step of the operator loop *)

  Lemma infix_step f m (e : tr) ot o l : infix ot o -> m <= o_prec o -> head_is (program l) ":" = false ->
    parse_infix (S f) m e (program (ot ++ l)) =
    (let '(spine, (aop, aargs)) := bubble o e in
     pbind (if (o_arity o =? 3)%nat
            then pbind (@parse_expr V f (-1) (program l)) (fun m ts3 => POk [m] ts3)
            else POk [] (program l)) (fun mid ts3 =>
     pbind (parse_operand f ts3) (fun x ts4 =>
     parse_infix f m (rebuild spine (TApp aop (aargs ++ mid ++ [x]))) ts4))).
  Proof.
    intros I M H. destruct (infix_joins _ _ I) as (J & C & S).
    assert (NC : assoc_eqb (o_assoc o) AChain = false).
    { apply not_true_iff_false. rewrite assoc_eqb_eq. intros X. rewrite X in S. destruct S; discriminate. }
    assert (LT : (o_prec o <? m) = false) by (apply Z.ltb_ge; exact M).
    rewrite parse_infix_eq. destruct I as [t o B A|t o B]; apply (infix_between (Tok KOperator t)) in B.
    - cbn [app]. rewrite program_cons. cbn [t_kind]. rewrite B.
      destruct (program_any l) as (k & ts & P). rewrite P in *. cbv zeta.
      change (second_is (Some (Tok KOperator t) :: k :: ts) ":") with (head_is (k :: ts) ":").
      rewrite H, LT, NC. reflexivity.
    - cbn [app]. rewrite !program_cons. cbn [t_kind]. rewrite B. cbv zeta.
      change (second_is (Some (Tok KOperator t) :: Some (mark ":") :: program l) ":") with true.
      change (head_is (Some (mark ":") :: program l) ":") with true. cbv iota beta.
      change (op_set_assign o (o_prec assign_op) (o_assoc assign_op)) with (storing o (o_assoc assign_op)).
      rewrite NC. change (o_prec (storing o (o_assoc assign_op))) with (o_prec assign_op) in LT.
      rewrite LT. reflexivity.
  Qed.

  Lemma chain_step f m (e : tr) t o l : comparison t o -> m <= o_prec op_chain -> head_is (program l) ":" = false ->
    parse_infix (S f) m e (program (Tok KOperator t :: l)) =
    (let '(spine, (aop, aargs)) := bubble op_chain e in
     pbind (parse_operand f (program l)) (fun x ts4 =>
     parse_infix f m (rebuild spine (TApp aop (aargs ++ [TOpr o; x]))) ts4)).
  Proof.
    intros CO M H. destruct (comparison_facts _ _ CO) as (B & P & S & A & I).
    assert (B' : infix_op (Tok KOperator t) = Some o) by (apply infix_between; left; exact B).
    assert (LT : (o_prec o <? m) = false) by (apply Z.ltb_ge; lia).
    rewrite parse_infix_eq, program_cons. cbn [t_kind]. rewrite B'.
    destruct (program_any l) as (k & ts & PL). rewrite PL in *. cbv zeta.
    change (second_is (Some (Tok KOperator t) :: k :: ts) ":") with (head_is (k :: ts) ":").
    rewrite H, LT, S. cbn [assoc_eqb]. destruct (bubble op_chain e) as [spine [aop aargs]]. reflexivity.
  Qed.

  Lemma infix_stop f m (e : tr) l : stops m l -> parse_infix (S f) m e (program l) = POk e (program l).
  Proof.
    intros S. rewrite parse_infix_eq. destruct l as [|t l]; [reflexivity|]. rewrite program_cons.
    destruct t as [k s]. cbn [t_kind]. destruct k; try reflexivity.
    destruct (infix_op (Tok KOperator s)) as [o|] eqn:I; [|reflexivity]. apply infix_between in I.
    specialize (S s o l eq_refl I). unfold ahead_prec in S.
    destruct (program_any l) as (k & ts & P). rewrite P in *. cbv zeta.
    change (second_is (Some (Tok KOperator s) :: k :: ts) ":") with (head_is (k :: ts) ":").
    apply Z.ltb_lt in S. rewrite S. reflexivity.
  Qed.

  (** ** Where an operator goes *)

  Definition hole_ok (hole : list (@frame V)) (o : oper) : Prop :=
    Forall (fun fr => joins (fst fr)
      /\ (o_prec o > o_prec (fst fr) \/ o_prec o = o_prec (fst fr) /\ o_assoc (fst fr) = ARight)) hole.

  Lemma rebuild_app (hole : list (@frame V)) o front x :
    rebuild (hole ++ [(o, front)]) x = rebuild hole (TApp o (front ++ [x])).
  Proof. unfold rebuild. rewrite fold_right_app. reflexivity. Qed.

  Lemma bubble_hole o (hole : list (@frame V)) cur s act : joins o -> hole_ok hole o ->
    bubble o cur = (s, act) -> bubble o (rebuild hole cur) = (hole ++ s, act).
  Proof.
    intros J H B. unfold bubble in *. induction H as [|[p front] hole (Jp & K) H IH]; [exact B|].
    cbn [rebuild fold_right fst] in *. fold (rebuild hole cur). rewrite depth_last.
    assert (BL : below p o = true).
    { unfold below. destruct K as [K|(K & K2)].
      - assert (X : (o_prec p <? o_prec o) = true) by (apply Z.ltb_lt; lia). rewrite X. reflexivity.
      - rewrite K, Z.eqb_refl, <- (same_assoc p o Jp J (eq_sym K)), K2. apply orb_true_r. }
    rewrite bubble_below by assumption. rewrite IH. reflexivity.
  Qed.

  Lemma chain_root (q : oper) (largs : list tr) te : expr (TApp q largs) te -> is_chain q = true -> q = op_chain.
  Proof.
    intros E C. inversion E; subst; try discriminate C; try reflexivity.
    - match goal with H : interpolated _ _ |- _ => inversion H; subst; discriminate C end.
    - match goal with H : prefix _ _ |- _ => apply prefix_facts in H; destruct H as (_ & _ & H & _); congruence end.
    - match goal with H : infix _ _ |- _ => apply infix_joins in H; destruct H as (_ & H & _); congruence end.
    - match goal with H : infix _ _ |- _ => apply infix_joins in H; destruct H as (_ & H & _); congruence end.
  Qed.

  Lemma bubble_left o (cur : tr) tc : joins o -> expr cur tc -> left_ok o cur -> bubble o cur = ([], (o, [cur])).
  Proof.
    intros J E (L & _). unfold bubble. destruct (spine_depth cur) as [|n]; [reflexivity|].
    cbn [bubble_fuel]. destruct cur as [t|v|q|q largs|sts|c args]; try reflexivity.
    fold (below q o). destruct ((o_arity q =? 2)%nat || (o_arity q =? 3)%nat) eqn:A.
    - assert (R : rooted (TApp q largs) q).
      { exists largs. split; [reflexivity|]. apply orb_prop in A. rewrite !Nat.eqb_eq in A. exact A. }
      assert (B : below q o = false).
      { unfold below. destruct (L q R) as [X|(X & Y)].
        - apply orb_false_intro; [apply Z.ltb_ge; lia|]. apply andb_false_intro1. apply Z.eqb_neq. lia.
        - rewrite Y, X. rewrite andb_false_r, Z.ltb_irrefl. reflexivity. }
      rewrite B. cbn [andb]. destruct (is_chain o && is_chain q) eqn:CC; [|reflexivity].
      apply andb_prop in CC. destruct CC as [C1 C2]. apply (j_chain o J) in C1. apply (chain_root _ _ _ E) in C2. subst.
      exfalso. destruct (L op_chain R) as [X|(_ & X)]; [lia|discriminate X].
    - cbn [andb]. destruct (is_chain o && is_chain q) eqn:CC; [|reflexivity].
      apply andb_prop in CC. destruct CC as [C1 C2]. apply (chain_root _ _ _ E) in C2. subst. discriminate A.
  Qed.

  Lemma bubble_chain (args : list tr) : bubble op_chain (TApp op_chain args) = ([], (op_chain, args)).
  Proof. reflexivity. Qed.

  (** ** Operands *)

  Lemma op_text_not n t o w : op_by_arity n t = Some o -> In w symbols -> str_eqb t (s_ w) = false.
  Proof.
    intros H I. destruct (in_table _ _ _ H) as (J & E & _). apply not_true_iff_false. rewrite str_eqb_eq.
    intros X. apply (g_symbol o (op_goods o J) w I). congruence.
  Qed.

  Lemma prefix_step f ot o l : prefix ot o -> head_is (program l) "*" = false -> head_is (program l) ":" = false ->
    parse_operand (S f) (program (ot ++ l))
    = pbind (@parse_expr V f (o_prec o + 1) (program l)) (fun x ts5 => POk (TApp o [x]) ts5).
  Proof.
    intros P H1 H2.
    assert (K : forall base op tail, bare base op ->
      parse_operand (S f) (program (base ++ tail)) =
      match program tail with
      | [] => PErr PIndexError
      | _ :: ts2' =>
        let '(op, ts3) := if head_is (program tail) "*" then (op_set_map op, ts2') else (op, program tail) in
        match ts3 with
        | [] => PErr PIndexError
        | _ :: ts3' =>
          let '(op, ts4) :=
            if head_is ts3 ":" then (op_set_assign op (o_prec assign_op) (o_assoc op), ts3') else (op, ts3) in
          pbind (@parse_expr V f (o_prec op + 1) ts4) (fun x ts5 => POk (TApp op [x]) ts5)
        end
      end).
    { intros base op tail B. rewrite parse_operand_eq. destruct B as [t p B|t p B|t p B]; cbn [app]; rewrite !program_cons; cbn [t_kind t_text sym].
      - rewrite (op_text_not _ _ _ "(" B), (op_text_not _ _ _ "[" B), (op_text_not _ _ _ "{" B),
          (op_text_not _ _ _ "$" B), (op_text_not _ _ _ "\$" B) by (cbn; auto 10).
        cbv zeta. cbn [orb]. rewrite B. reflexivity.
      - change (str_eqb (s_ "$") (s_ "(")) with false. change (str_eqb (s_ "$") (s_ "[")) with false.
        change (str_eqb (s_ "$") (s_ "{")) with false. change (str_eqb (s_ "$") (s_ "$")) with true.
        cbv zeta. cbn [orb]. rewrite B. reflexivity.
      - change (str_eqb (s_ "\$") (s_ "(")) with false. change (str_eqb (s_ "\$") (s_ "[")) with false.
        change (str_eqb (s_ "\$") (s_ "{")) with false. change (str_eqb (s_ "\$") (s_ "$")) with false.
        change (str_eqb (s_ "\$") (s_ "\$")) with true.
        cbv zeta. cbn [orb]. rewrite B. reflexivity. }
    destruct (program_any l) as (k & ts & PL).
    destruct P as [base o B|base o B|base o B|base o B]; rewrite ?app_assoc_reverse, (K _ _ _ B); cbn [app];
      rewrite ?program_cons.
    - rewrite PL in *. rewrite H1, H2. reflexivity.
    - change (head_is (Some (mark "*") :: program l) "*") with true. cbv iota beta. rewrite PL in *. rewrite H2. reflexivity.
    - reflexivity.
    - reflexivity.
  Qed.

  Lemma pbind_assoc {A B C} (x : pres A) (g : A -> toklist -> pres B) (h : B -> toklist -> pres C) :
    pbind (pbind x g) h = pbind x (fun a r => pbind (g a r) h).
  Proof. destruct x; reflexivity. Qed.

  Lemma ev_after {A B} (x : nat -> pres A) (k : nat -> A -> toklist -> pres B) a r z :
    ev x (POk a r) -> (forall f, k f a r = z) -> ev (fun f => pbind (x f) (k f)) z.
  Proof.
    intros X K. apply (ev_bind x a r); [exact X|]. exists 0%nat. intros f _. apply K.
  Qed.

  (** What the induction says. *)
  Definition grows (e : tr) (te : list token) : Prop :=
    forall m (hole : list (@frame V)) rest z, toks (te ++ rest) ->
    Forall (fun fr => joins (fst fr) /\ right_ok (fst fr) e) hole -> at_least m e -> edges_stop e rest ->
    ev (fun f => parse_infix f m (rebuild hole e) (program rest)) z ->
    ev (fun f => pbind (parse_operand f (program (te ++ rest)))
                       (fun x ts => parse_infix f m (rebuild hole x) ts)) z.
  Definition grows_links (ls : list tr) (tl : list token) : Prop :=
    forall m (hole : list (@frame V)) cur acc rest z, toks (tl ++ rest) ->
    hole_ok hole op_chain -> m <= o_prec op_chain -> bubble op_chain cur = ([], (op_chain, acc)) ->
    edges_stop (TApp op_chain (acc ++ ls)) rest ->
    ev (fun f => parse_infix f m (rebuild hole (TApp op_chain (acc ++ ls))) (program rest)) z ->
    ev (fun f => parse_infix f m (rebuild hole cur) (program (tl ++ rest))) z.
  Definition reads_back {A} (p : nat -> toklist -> pres A) (a : A) (ts rest : list token) : Prop :=
    forall rest', hd_error rest = hd_error rest' -> toks (ts ++ rest') ->
    ev (fun f => p f (program (ts ++ rest'))) (POk a (program rest')).
  Definition reads_items (es : list tr) (ts rest : list token) : Prop :=
    forall c rest', rest = [sym c] -> In c [")"; "]"] -> toks (ts ++ sym c :: rest') ->
    ev (fun f => parse_until f c (program (ts ++ sym c :: rest'))) (POk es (program rest')).
  Definition reads_code (sts : list tr) (ts rest : list token) : Prop :=
    forall rest', hd_error rest = hd_error rest' -> rest' = [] \/ hd_error rest' = Some (sym "}") ->
    toks (ts ++ rest') -> ev (fun f => parse f (program (ts ++ rest'))) (POk sts (program rest')).
  Definition reads_names (xs : list tr) (ts rest : list token) : Prop :=
    forall rest', rest = [sym "]"] -> toks (ts ++ sym "]" :: rest') ->
    ev (fun f => parse_names f (program (ts ++ sym "]" :: rest'))) (POk xs (program rest')).

  (** An expression that is no operation of an infix operator. *)
  Lemma grows_operand (e : tr) te : 
    (forall rest, toks (te ++ rest) -> edges_stop e rest ->
       ev (fun f => parse_operand f (program (te ++ rest))) (POk e (program rest))) -> grows e te.
  Proof.
    intros H m hole rest z T _ _ ED E. eapply ev_bind; [apply H; auto|exact E].
  Qed.

  Lemma expr_reads (e : tr) te m rest : grows e te -> toks (te ++ rest) -> at_least m e -> edges_stop e rest ->
    stops m rest -> ev (fun f => parse_expr f m (program (te ++ rest)))
      (match program rest with
       | [] => PErr PIndexError
       | _ :: ts3 => if (m =? -1) && head_is (program rest) ";" then POk e ts3 else POk e (program rest)
       end).
  Proof.
    intros G T AL ED ST.
    apply (ev_succ _ (fun f => pbind (pbind (parse_operand f (program (te ++ rest))) (fun x ts => parse_infix f m x ts))
       (fun e ts2 => match ts2 with
          | [] => PErr PIndexError
          | _ :: ts3 => if (m =? -1) && head_is ts2 ";" then POk e ts3 else POk e ts2 end))).
    { intros f. rewrite parse_expr_eq, pbind_assoc. reflexivity. }
    eapply ev_after; [|intros f; reflexivity].
    apply (G m [] rest); auto. apply (ev_succ _ (fun _ => POk e (program rest))); [|apply ev_const].
    intros f. apply infix_stop, ST.
  Qed.

  Lemma hole_below (hole : list (@frame V)) (e : tr) o : rooted e o ->
    Forall (fun fr => joins (fst fr) /\ right_ok (fst fr) e) hole -> hole_ok hole o.
  Proof.
    intros R H. eapply Forall_impl; [|exact H]. intros fr (J & K). split; [exact J|]. apply K, R.
  Qed.

  (** Frames around [e] may also stand around its operands. *)
  Lemma hole_left (hole : list (@frame V)) o (l : tr) : joins o -> hole_ok hole o -> left_ok o l ->
    Forall (fun fr => joins (fst fr) /\ right_ok (fst fr) l) hole.
  Proof.
    intros J H (L & _). eapply Forall_impl; [|exact H]. intros fr (Jf & K). split; [exact Jf|].
    intros p R. specialize (L p R). destruct L as [L|(L & L2)]; [lia|]. destruct K as [K|(K & K2)]; [lia|].
    exfalso. rewrite (same_assoc o (fst fr) J Jf K) in L2. congruence.
  Qed.

  Lemma hole_right (hole : list (@frame V)) o front (r : tr) : joins o -> hole_ok hole o -> right_ok o r ->
    Forall (fun fr => joins (fst fr) /\ right_ok (fst fr) r) (hole ++ [(o, front)]).
  Proof.
    intros J H K. apply Forall_app. split; [|constructor; [auto|constructor]].
    eapply Forall_impl; [|exact H]. intros fr (Jf & K2). split; [exact Jf|].
    intros p R. specialize (K p R). destruct K as [K|(K & K3)]; [lia|]. destruct K2 as [K2|(K2 & K4)]; [lia|]. right. split; [lia|exact K4].
  Qed.

  Lemma least_left m o (l : tr) : m <= o_prec o -> left_ok o l -> at_least m l.
  Proof. intros M (L & _) p R. specialize (L p R). lia. Qed.
  Lemma least_right m o (l : tr) : m <= o_prec o -> right_ok o l -> at_least m l.
  Proof. intros M L p R. specialize (L p R). lia. Qed.

  Lemma stops_infix ot o l m : infix ot o -> head_is (program l) ":" = false -> o_prec o < m -> stops m (ot ++ l).
  Proof.
    intros I H M t p rest EQ B. unfold ahead_prec. destruct I as [t' o B' _|t' o B']; cbn [app] in EQ; injection EQ as -> <-.
    - rewrite H. apply (infix_between (Tok KOperator t)) in B, B'. congruence.
    - rewrite program_cons. change (head_is (Some (mark ":") :: program l) ":") with true. exact M.
  Qed.

  Lemma stops_chain t o l m : comparison t o -> head_is (program l) ":" = false -> o_prec op_chain < m ->
    stops m (Tok KOperator t :: l).
  Proof.
    intros CO H M t' p rest EQ B. unfold ahead_prec. injection EQ as <- <-. rewrite H.
    destruct (comparison_facts _ _ CO) as (B' & P & _).
    apply (infix_between (Tok KOperator t)) in B. assert (B2 : infix_op (Tok KOperator t) = Some o) by (apply infix_between; left; exact B').
    congruence.
  Qed.

  Lemma edges_left o (l : tr) rest : left_ok o l -> (forall m, o_prec o < m -> stops m rest) -> edges_stop l rest.
  Proof. intros (_ & L) S p E. apply S. specialize (L p E). lia. Qed.

  Lemma edges_infix o (front : list tr) r rest : joins o -> edges_stop (TApp o (front ++ [r])) rest -> edges_stop r rest.
  Proof. intros J H p E. apply H. apply edge_infix; [apply (j_arity o J)|exact E]. Qed.

  Lemma links_hd (ls : list tr) tl : links ls tl -> exists t o tl', tl = Tok KOperator t :: tl' /\ comparison t o
    /\ exists e te more, tl' = te ++ more /\ @expr V e te.
  Proof.
    intros [t o e te C E _|t o e te ls' tl' C E _ _ _].
    - exists t, o, te. split; [reflexivity|]. split; [exact C|]. exists e, te, []. rewrite app_nil_r. auto.
    - exists t, o, (te ++ tl'). split; [reflexivity|]. split; [exact C|]. exists e, te, tl'. auto.
  Qed.

  (** ** The cases of the induction *)

  Lemma toks_r a b : toks (a ++ b) -> toks b.
  Proof. intros H. apply (toks_app a b H). Qed.

  Lemma atom_grows t : In (t_kind t) [KName; KNumber; KString; KPattern; KChar] -> grows (TTok t) [t].
  Proof.
    intros K. apply grows_operand. intros rest _ _. apply (ev_succ _ (fun _ => POk (TTok t) (program rest))); [|apply ev_const].
    intros f. rewrite parse_operand_eq. cbn [app]. rewrite program_cons. cbn [In] in K.
    destruct K as [K|[K|[K|[K|[K|[]]]]]]; rewrite <- K; reflexivity.
  Qed.

  Lemma text_grows t (e : tr) : interpolated t e -> grows e [t].
  Proof.
    intros I. apply grows_operand. intros rest _ _. apply (ev_succ _ (fun _ => POk e (program rest))); [|apply ev_const].
    intros f. rewrite parse_operand_eq. cbn [app]. rewrite program_cons.
    assert (exists s, t = escaped s) as (s & ->) by (destruct I; eauto).
    cbn [escaped t_kind]. f_equal. apply escaped_interpolated. exact I.
  Qed.

  Lemma paren_grows (es : list tr) ts : reads_items es ts [sym ")"] ->
    grows (match es with [] => TTok (Tok KNil (s_ "()")) | [e] => TApp op_paren [e] | _ => TApp op_send es end)
          (sym "(" :: ts ++ [sym ")"]).
  Proof.
    intros R. apply grows_operand. intros rest T _. cbn [app] in *. rewrite <- app_assoc in *. cbn [app] in *.
    inversion T as [|? ? _ T2]; subst.
    apply (ev_succ _ (fun f => pbind (parse_until f ")" (program (ts ++ sym ")" :: rest))) (fun es ts2 =>
              match es with
              | [] => POk (TTok (Tok KNil (s_ "()"))) ts2
              | [e] => POk (TApp op_paren [e]) ts2
              | _ => POk (TApp op_send es) ts2
              end))); [intros f; reflexivity|].
    eapply ev_after; [apply (R ")" rest eq_refl ltac:(cbn; auto) T2)|].
    intros f. destruct es as [|a [|b es]]; reflexivity.
  Qed.

  Lemma list_grows (es : list tr) ts : reads_items es ts [sym "]"] -> grows (TApp op_enlist es) (sym "[" :: ts ++ [sym "]"]).
  Proof.
    intros R. apply grows_operand. intros rest T _. cbn [app] in *. rewrite <- app_assoc in *. cbn [app] in *.
    inversion T as [|? ? _ T2]; subst.
    apply (ev_succ _ (fun f => pbind (parse_until f "]" (program (ts ++ sym "]" :: rest)))
      (fun es ts2 => POk (TApp op_enlist es) ts2))); [intros f; reflexivity|].
    eapply ev_after; [apply (R "]" rest eq_refl ltac:(cbn; auto) T2)|reflexivity].
  Qed.

  Lemma braces_read (sts : list tr) ts rest : reads_code sts ts [sym "}"] ->
    toks ((sym "{" :: ts ++ [sym "}"]) ++ rest) ->
    ev (fun f => parse_block f (program ((sym "{" :: ts ++ [sym "}"]) ++ rest))) (POk sts (program rest)).
  Proof.
    intros R T. cbn [app] in *. rewrite <- app_assoc in *. cbn [app] in *. inversion T as [|? ? _ T2]; subst.
    apply (ev_succ _ (fun f => pbind (parse f (program (ts ++ sym "}" :: rest))) (fun sts ts2 =>
             match ts2 with
             | [] => PErr PIndexError
             | None :: _ => PErr IncompleteSyntax
             | Some _ :: ts3 => if head_is ts2 "}" then POk sts ts3 else PErr BadSyntax
             end))); [intros f; reflexivity|].
    eapply ev_after; [apply (R (sym "}" :: rest) eq_refl (or_intror eq_refl) T2)|reflexivity].
  Qed.

  Lemma block_grows (sts : list tr) ts : reads_code sts ts [sym "}"] ->
    grows (TApp op_block [TBlk sts]) (sym "{" :: ts ++ [sym "}"]).
  Proof.
    intros R. apply grows_operand. intros rest T _.
    apply (ev_succ _ (fun f => pbind (parse_block f (program ((sym "{" :: ts ++ [sym "}"]) ++ rest)))
      (fun b ts2 => POk (TApp op_block [TBlk b]) ts2))); [intros f; reflexivity|].
    eapply ev_after; [apply (braces_read sts ts rest R T)|reflexivity].
  Qed.

  Lemma prefix_grows o (x : tr) ot tx : prefix ot o -> expr x tx -> grows x tx -> operand_ok o x -> grows (TApp o [x]) (ot ++ tx).
  Proof.
    intros P X G OK. apply grows_operand. intros rest T ED. rewrite <- app_assoc in *. pose proof (toks_r _ _ T) as T2.
    destruct (prefix_facts _ _ P) as (A & PR & C & NB).
    apply (ev_succ _ (fun f => pbind (@parse_expr V f (o_prec o + 1) (program (tx ++ rest))) (fun x ts5 => POk (TApp o [x]) ts5))).
    { intros f. apply prefix_step; [exact P|eapply expr_no_mark; eauto|eapply expr_no_mark; eauto]. }
    assert (Q : (o_prec o + 1 =? -1) = false) by (apply Z.eqb_neq; lia).
    eapply ev_after with (a := x) (r := program rest); [|reflexivity].
    assert (F : match program rest with
                | [] => PErr PIndexError
                | _ :: ts3 => if (o_prec o + 1 =? -1) && head_is (program rest) ";" then POk x ts3 else POk x (program rest)
                end = POk x (program rest)) by (rewrite Q; destruct rest; reflexivity).
    rewrite <- F. apply expr_reads; auto.
    - intros p R. specialize (OK p R). lia.
    - intros p Ep. apply ED. apply edge_prefix; auto.
    - apply ED. apply edge_here; auto.
  Qed.

  Lemma infix_grows o (l r : tr) ot tl tx : infix ot o -> o_arity o = 2%nat -> expr l tl -> grows l tl -> expr r tx ->
    grows r tx -> left_ok o l -> right_ok o r -> grows (TApp o [l; r]) (tl ++ ot ++ tx).
  Proof.
    intros I A L GL R GR LO RO m hole rest z T H AL ED E.
    destruct (infix_joins _ _ I) as (J & C & S).
    assert (RT : rooted (TApp o [l; r]) o) by (eexists; split; [reflexivity|left; exact A]).
    pose proof (hole_below _ _ _ RT H) as HO. pose proof (AL o RT) as M.
    rewrite <- !app_assoc in *. pose proof (toks_r _ _ T) as T1. pose proof (toks_r _ _ T1) as T2.
    assert (NM : head_is (program (tx ++ rest)) ":" = false) by (eapply expr_no_mark; eauto).
    apply GL; auto.
    - eapply hole_left; eauto.
    - eapply least_left; eauto.
    - apply (edges_left o); [exact LO|]. intros m' M'. apply (stops_infix _ o); auto.
    - apply (ev_succ _ (fun f => pbind (parse_operand f (program (tx ++ rest)))
               (fun x ts => parse_infix f m (rebuild (hole ++ [(o, [l])]) x) ts))).
      + intros f. rewrite (infix_step f m _ ot o _ I M NM).
        rewrite (bubble_hole o hole l [] (o, [l]) J HO (bubble_left o l tl J L LO)), app_nil_r, A. cbn [Nat.eqb pbind].
        destruct (parse_operand f (program (tx ++ rest))); [cbn [pbind]; rewrite rebuild_app; reflexivity|reflexivity].
      + apply GR; auto.
        * eapply hole_right; eauto.
        * eapply least_right; eauto.
        * apply (edges_infix o [l] r); assumption.
        * eapply ev_ext; [|exact E]. intros f. rewrite rebuild_app. reflexivity.
  Qed.

  Lemma ternary_grows o (l mid r : tr) ot tl tm tx : infix ot o -> o_arity o = 3%nat -> expr l tl -> grows l tl ->
    closed mid tm tx -> reads_back (fun f => parse_expr f (-1)) mid tm tx -> expr r tx ->
    grows r tx -> left_ok o l -> right_ok o r -> grows (TApp o [l; mid; r]) (tl ++ ot ++ tm ++ tx).
  Proof.
    intros I A L GL MC MR R GR LO RO m hole rest z T H AL ED E.
    destruct (infix_joins _ _ I) as (J & C & S).
    assert (RT : rooted (TApp o [l; mid; r]) o) by (eexists; split; [reflexivity|right; exact A]).
    pose proof (hole_below _ _ _ RT H) as HO. pose proof (AL o RT) as M.
    rewrite <- !app_assoc in *. pose proof (toks_r _ _ T) as T1. pose proof (toks_r _ _ T1) as T2.
    pose proof (toks_r _ _ T2) as T3.
    assert (NM : head_is (program (tm ++ tx ++ rest)) ":" = false).
    { destruct MC as [mid tm s tx' X _ _]. rewrite <- !app_assoc in *. eapply expr_no_mark; eauto. }
    assert (HD : hd_error tx = hd_error (tx ++ rest)).
    { destruct (expr_starts _ _ R) as (k & q & -> & _). reflexivity. }
    apply GL; auto.
    - eapply hole_left; eauto.
    - eapply least_left; eauto.
    - apply (edges_left o); [exact LO|]. intros m' M'. apply (stops_infix _ o); auto.
    - apply (ev_succ _ (fun f => pbind (parse_expr f (-1) (program (tm ++ tx ++ rest))) (fun mid ts3 =>
               pbind (parse_operand f ts3) (fun x ts => parse_infix f m (rebuild (hole ++ [(o, [l; mid])]) x) ts)))).
      + intros f. rewrite (infix_step f m _ ot o _ I M NM).
        rewrite (bubble_hole o hole l [] (o, [l]) J HO (bubble_left o l tl J L LO)), app_nil_r, A. cbn [Nat.eqb].
        rewrite pbind_assoc. destruct (parse_expr f (-1) (program (tm ++ tx ++ rest))) as [y r2|]; [|reflexivity].
        cbn [pbind]. destruct (parse_operand f r2); [cbn [pbind]; rewrite rebuild_app; reflexivity|reflexivity].
      + eapply ev_bind; [apply (MR (tx ++ rest) HD T2)|]. apply GR; auto.
        * eapply hole_right; eauto.
        * eapply least_right; eauto.
        * apply (edges_infix o [l; mid] r); assumption.
        * eapply ev_ext; [|exact E]. intros f. rewrite rebuild_app. reflexivity.
  Qed.

  Lemma last_link_grows t o (e : tr) te : comparison t o -> expr e te -> grows e te -> right_ok op_chain e ->
    grows_links [TOpr o; e] (Tok KOperator t :: te).
  Proof.
    intros CO X G RO m hole cur acc rest z T HO M B ED E. cbn [app] in *. inversion T as [|? ? _ T2]; subst.
    assert (NM : head_is (program (te ++ rest)) ":" = false) by (eapply expr_no_mark; eauto).
    apply (ev_succ _ (fun f => pbind (parse_operand f (program (te ++ rest)))
             (fun x ts => parse_infix f m (rebuild (hole ++ [(op_chain, acc ++ [TOpr o])]) x) ts))).
    - intros f. rewrite (chain_step f m _ t o _ CO M NM).
      rewrite (bubble_hole op_chain hole cur [] (op_chain, acc) chain_joins HO B), app_nil_r.
      destruct (parse_operand f (program (te ++ rest))); [|reflexivity].
      cbn [pbind]. rewrite rebuild_app, <- app_assoc. reflexivity.
    - apply G; auto.
      + apply hole_right; [exact chain_joins|exact HO|exact RO].
      + apply (least_right m op_chain); assumption.
      + apply (edges_infix op_chain (acc ++ [TOpr o]) e); [exact chain_joins|]. rewrite <- app_assoc. exact ED.
      + eapply ev_ext; [|exact E]. intros f. rewrite rebuild_app, <- app_assoc. reflexivity.
  Qed.

  Lemma links_no_mark (ls : list tr) tl rest : links ls tl -> toks (tl ++ rest) ->
    forall m, o_prec op_chain < m -> stops m (tl ++ rest).
  Proof.
    intros L T m M. destruct (links_hd _ _ L) as (t & o & tl' & -> & CO & e & te & more & -> & X).
    cbn [app] in *. inversion T as [|? ? _ T2]; subst. apply (stops_chain t o); auto.
    rewrite <- app_assoc in *. eapply expr_no_mark; eauto.
  Qed.

  Lemma more_link_grows t o (e : tr) te ls tl : comparison t o -> expr e te -> grows e te -> right_ok op_chain e ->
    left_ok op_chain e -> links ls tl -> grows_links ls tl -> grows_links (TOpr o :: e :: ls) (Tok KOperator t :: te ++ tl).
  Proof.
    intros CO X G RO LO L GL m hole cur acc rest z T HO M B ED E. cbn [app] in *. inversion T as [|? ? _ T2]; subst.
    rewrite <- app_assoc in *. pose proof (toks_r _ _ T2) as T3.
    assert (NM : head_is (program (te ++ tl ++ rest)) ":" = false) by (eapply expr_no_mark; eauto).
    apply (ev_succ _ (fun f => pbind (parse_operand f (program (te ++ tl ++ rest)))
             (fun x ts => parse_infix f m (rebuild (hole ++ [(op_chain, acc ++ [TOpr o])]) x) ts))).
    - intros f. rewrite (chain_step f m _ t o _ CO M NM).
      rewrite (bubble_hole op_chain hole cur [] (op_chain, acc) chain_joins HO B), app_nil_r.
      destruct (parse_operand f (program (te ++ tl ++ rest))); [|reflexivity].
      cbn [pbind]. rewrite rebuild_app, <- app_assoc. reflexivity.
    - assert (EQ : acc ++ TOpr o :: e :: ls = ((acc ++ [TOpr o]) ++ [e]) ++ ls) by (rewrite <- !app_assoc; reflexivity).
      rewrite EQ in *. apply G; auto.
      + apply hole_right; [exact chain_joins|exact HO|exact RO].
      + apply (least_right m op_chain); assumption.
      + apply (edges_left op_chain); [exact LO|]. apply (links_no_mark ls); assumption.
      + eapply ev_ext; [intros f; rewrite rebuild_app; reflexivity|].
        apply (GL m hole _ ((acc ++ [TOpr o]) ++ [e]) rest z T3 HO M (bubble_chain _) ED E).
  Qed.

  Lemma chain_grows (e : tr) ls te tl : expr e te -> grows e te -> left_ok op_chain e -> links ls tl -> grows_links ls tl ->
    grows (TApp op_chain (e :: ls)) (te ++ tl).
  Proof.
    intros X G LO L GL m hole rest z T H AL ED E.
    assert (RT : rooted (TApp op_chain (e :: ls)) op_chain) by (eexists; split; [reflexivity|left; reflexivity]).
    pose proof (hole_below _ _ _ RT H) as HO. pose proof (AL _ RT) as M.
    rewrite <- !app_assoc in *. pose proof (toks_r _ _ T) as T1.
    apply G; auto.
    - apply (hole_left hole op_chain); [exact chain_joins|exact HO|exact LO].
    - apply (least_left m op_chain); assumption.
    - apply (edges_left op_chain); [exact LO|]. apply (links_no_mark ls); assumption.
    - apply (GL m hole e [e] rest z T1 HO M); [|exact ED|exact E].
      apply (bubble_left op_chain e te chain_joins X LO).
  Qed.

  (** ** Expressions in their places *)

  Lemma rooted_prec (e : tr) te p : expr e te -> rooted e p -> 0 <= o_prec p.
  Proof. intros E R. destruct (expr_split _ _ _ E R) as (J & _). apply (j_prec p J). Qed.

  Lemma semi_reads {A} (a : A) s rest : semi s rest -> toks (s ++ rest) ->
    match program (s ++ rest) with
    | [] => PErr PIndexError
    | _ :: ts3 => if head_is (program (s ++ rest)) ";" then POk a ts3 else POk a (program (s ++ rest))
    end = POk a (program rest).
  Proof.
    intros [r N|r] T; cbn [app] in *; [|reflexivity].
    rewrite (head_not_sym r ";" T ltac:(cbn; auto 10) N). destruct r; reflexivity.
  Qed.

  Lemma closed_reads (e : tr) ts s rest : expr e ts -> grows e ts -> semi s rest -> (s = [] -> ~ operator_ahead rest) ->
    reads_back (fun f => parse_expr f (-1)) e (ts ++ s) rest.
  Proof.
    intros X G S N rest' HD T. rewrite <- app_assoc in *. pose proof (toks_r _ _ T) as T2.
    pose proof (semi_hd _ _ _ S HD) as S'.
    assert (ST : forall m, stops m (s ++ rest')).
    { intros m t o r EQ B. exfalso. destruct S' as [r' _|r']; cbn [app] in EQ; [|discriminate EQ].
      apply (N eq_refl). apply (ahead_hd r'); [congruence|]. exists t, o, r. auto. }
    rewrite <- (semi_reads e s rest' S' T2). apply (expr_reads e ts (-1) (s ++ rest') G T).
    - intros p R. pose proof (rooted_prec _ _ _ X R). lia.
    - intros p Ep. apply ST.
    - apply ST.
  Qed.

  Lemma items_read (e : tr) es te ts rest : closed e te (ts ++ rest) ->
    reads_back (fun f => parse_expr f (-1)) e te (ts ++ rest) -> reads_items es ts rest -> reads_items (e :: es) (te ++ ts) rest.
  Proof.
    intros C R RI c rest' -> I T. rewrite <- app_assoc in *. pose proof (toks_r _ _ T) as T2.
    apply (ev_succ _ (fun f => pbind (parse_expr f (-1) (program (te ++ ts ++ sym c :: rest'))) (fun e ts2 =>
             pbind (parse_until f c ts2) (fun es ts3 => POk (e :: es) ts3)))).
    - intros f. rewrite parse_until_eq. destruct C as [e te s tl X _ _]. destruct (expr_starts _ _ X) as (t & te' & -> & S).
      cbn [app] in *. rewrite !program_cons. inversion T as [|? ? Tt _]; subst.
      rewrite ParseProof.head_is_some, (text_not_sym t c Tt).
      + reflexivity.
      + cbn in *. intuition.
      + apply starter_not_sym; [exact S|cbn in *; intuition].
    - eapply ev_bind; [apply R; [apply hd_app; reflexivity|exact T]|]. cbv beta.
      eapply ev_after; [apply RI; auto|reflexivity].
  Qed.

  Lemma no_items_read rest : reads_items [] [] rest.
  Proof.
    intros c rest' -> I T. apply (ev_succ _ (fun _ => POk [] (program rest'))); [|apply ev_const].
    intros f. cbn [app]. rewrite parse_until_eq, program_cons, ParseProof.head_is_some. cbn [sym t_text].
    rewrite str_eqb_refl. reflexivity.
  Qed.

  (** ** Statements *)

  Lemma closed_hd_tok (e : tr) ts rest : closed e ts rest -> exists t ts', ts = t :: ts' /\ starter t.
  Proof.
    intros [e' ts' s r X _ _]. destruct (expr_starts _ _ X) as (t & q & -> & S). exists t, (q ++ s). auto.
  Qed.

  Lemma statement_hd_tok (st : tr) ts rest : statement st ts rest ->
    exists t ts', ts = t :: ts' /\ (starter t \/ t_kind t = KCommand).
  Proof.
    intros [e ts' s r C _|c args ts' s r I _ _].
    - destruct (closed_hd_tok _ _ _ C) as (t & q & -> & S). exists t, (q ++ s). auto.
    - eexists; eexists; split; [reflexivity|right; reflexivity].
  Qed.

  Lemma code_reads (st : tr) sts tst ts rest : statement st tst (ts ++ rest) ->
    reads_back parse_statement st tst (ts ++ rest) -> reads_code sts ts rest -> reads_code (st :: sts) (tst ++ ts) rest.
  Proof.
    intros S R RC rest' HD EN T. rewrite <- app_assoc in *. pose proof (toks_r _ _ T) as T2.
    apply (ev_succ _ (fun f => pbind (parse_statement f (program (tst ++ ts ++ rest'))) (fun st ts1 =>
             pbind (parse f ts1) (fun sts ts2 => POk (st :: sts) ts2)))).
    - intros f. rewrite parse_eq. destruct (statement_hd_tok _ _ _ S) as (t & q & -> & K).
      cbn [app] in *. inversion T as [|? ? Tt _]; subst. rewrite program_cons.
      rewrite (text_not_sym t "}" Tt); [reflexivity|cbn; auto 10|].
      destruct K as [K|K]; [apply starter_not_sym; [exact K|cbn; auto]|intros ->; discriminate K].
    - eapply ev_bind; [apply R; [apply hd_app; exact HD|exact T]|]. cbv beta.
      eapply ev_after; [apply RC; auto|reflexivity].
  Qed.

  Lemma no_code_reads rest : reads_code [] [] rest.
  Proof.
    intros rest' HD EN T. apply (ev_succ _ (fun _ => POk [] (program rest'))); [|apply ev_const].
    intros f. cbn [app]. rewrite parse_eq. destruct rest' as [|t r]; [reflexivity|].
    destruct EN as [EN|EN]; [discriminate EN|]. injection EN as ->. reflexivity.
  Qed.

  Lemma expr_statement_reads (e : tr) ts s rest : closed e ts (s ++ rest) ->
    reads_back (fun f => parse_expr f (-1)) e ts (s ++ rest) -> semi s rest -> reads_back parse_statement e (ts ++ s) rest.
  Proof.
    intros C R S rest' HD T. rewrite <- app_assoc in *. pose proof (toks_r _ _ T) as T2.
    pose proof (semi_hd _ _ _ S HD) as S'.
    apply (ev_succ _ (fun f => pbind (parse_expr f (-1) (program (ts ++ s ++ rest'))) (fun st ts =>
        match ts with
        | [] => PErr PIndexError
        | _ :: ts' => if head_is ts ";" then POk st ts' else POk st ts
        end))).
    - intros f. rewrite parse_statement_eq. destruct (closed_hd_tok _ _ _ C) as (t & q & -> & K).
      apply starter_kind in K. cbn [app]. rewrite program_cons. cbv zeta. destruct (t_kind t); try reflexivity. contradiction.
    - eapply ev_after; [apply (R (s ++ rest')); [apply hd_app; exact HD|exact T]|].
      intros f. apply semi_reads; assumption.
  Qed.

  Lemma command_found c : In c cmd_table -> command_of (c_text c) = Some c.
  Proof.
    unfold cmd_table. cbn [In]. intros H. repeat (destruct H as [<-|H]; [reflexivity|]). destruct H.
  Qed.

  Lemma command_reads c (args : list tr) ts s rest : In c cmd_table ->
    reads_back (fun f => parse_args f (c_args c)) args ts (s ++ rest) -> semi s rest ->
    reads_back parse_statement (TCmd c args) (Tok KCommand (c_text c) :: ts ++ s) rest.
  Proof.
    intros I R S rest' HD T. cbn [app] in *. rewrite <- app_assoc in *. inversion T as [|? ? _ T1]; subst.
    pose proof (toks_r _ _ T1) as T2. pose proof (semi_hd _ _ _ S HD) as S'.
    apply (ev_succ _ (fun f => pbind (parse_args f (c_args c) (program (ts ++ s ++ rest'))) (fun args ts =>
        match ts with
        | [] => PErr PIndexError
        | _ :: ts' => if head_is ts ";" then POk (TCmd c args) ts' else POk (TCmd c args) ts
        end))).
    - intros f. rewrite parse_statement_eq, program_cons. cbn [t_kind t_text]. rewrite (command_found c I). reflexivity.
    - eapply ev_after; [apply (R (s ++ rest')); [apply hd_app; exact HD|exact T1]|].
      intros f. apply semi_reads; assumption.
  Qed.

  Lemma no_args_read rest : reads_back (fun f => @parse_args V f []) [] [] rest.
  Proof.
    intros rest' HD T. apply (ev_succ _ (fun _ => POk [] (program rest'))); [|apply ev_const]. reflexivity.
  Qed.

  (** Reading one argument. *)
  Definition parse_arg (a : argtype) (f : nat) (ts : toklist) : pres tr :=
    match a with
    | A_ELSE =>
      match ts with
      | [] => PErr PIndexError
      | _ :: ts1 =>
        if head_is ts "EL" then pbind (parse_block f ts1) (fun b ts2 => POk (TBlk b) ts2) else POk (TBlk []) ts
      end
    | A_CODE => pbind (parse_block f ts) (fun b ts2 => POk (TBlk b) ts2)
    | A_LOOPVAR => parse_name_list f ts
    | A_EXPR => parse_expr f (-1) ts
    end.

  Lemma args_read a tys (x : tr) xs tx ts rest : reads_back (parse_arg a) x tx (ts ++ rest) ->
    reads_back (fun f => parse_args f tys) xs ts rest -> reads_back (fun f => parse_args f (a :: tys)) (x :: xs) (tx ++ ts) rest.
  Proof.
    intros R RA rest' HD T. rewrite <- app_assoc in *. pose proof (toks_r _ _ T) as T2.
    apply (ev_succ _ (fun f => pbind (parse_arg a f (program (tx ++ ts ++ rest'))) (fun x ts1 =>
        pbind (parse_args f tys ts1) (fun xs ts2 => POk (x :: xs) ts2)))).
    - intros f. reflexivity.
    - eapply ev_bind; [apply (R (ts ++ rest')); [apply hd_app; exact HD|exact T]|]. cbv beta.
      eapply ev_after; [apply (RA rest' HD T2)|reflexivity].
  Qed.

  Lemma code_arg_reads (sts : list tr) ts rest : reads_back parse_block sts ts rest -> reads_back (parse_arg A_CODE) (TBlk sts) ts rest.
  Proof. intros R rest' HD T. eapply ev_after; [apply (R rest' HD T)|reflexivity]. Qed.

  Lemma else_reads (sts : list tr) ts rest : reads_back parse_block sts ts rest ->
    reads_back (parse_arg A_ELSE) (TBlk sts) (sym "EL" :: ts) rest.
  Proof.
    intros R rest' HD T. cbn [app] in *. inversion T as [|? ? _ T2]; subst.
    eapply ev_ext with (h := fun f => pbind (parse_block f (program (ts ++ rest'))) (fun b ts2 => POk (TBlk b) ts2));
      [intros f; reflexivity|]. eapply ev_after; [apply (R rest' HD T2)|reflexivity].
  Qed.

  Lemma no_else_reads rest : hd_error rest <> Some (sym "EL") -> reads_back (parse_arg A_ELSE) (TBlk []) [] rest.
  Proof.
    intros N rest' HD T. cbn [app] in *. eapply ev_ext; [|apply ev_const]. intros f. unfold parse_arg.
    rewrite (head_not_sym rest' "EL" T); [destruct rest'; reflexivity|cbn; auto 12|congruence].
  Qed.

  Lemma block_body_reads (sts : list tr) ts rest : reads_code sts ts [sym "}"] ->
    reads_back parse_block sts (sym "{" :: ts ++ [sym "}"]) rest.
  Proof. intros R rest' HD T. apply braces_read; assumption. Qed.

  Lemma statement_body_reads (st : tr) ts rest : statement st ts rest -> reads_back parse_statement st ts rest ->
    hd_error ts <> Some (sym "{") -> reads_back parse_block [st] ts rest.
  Proof.
    intros S R N rest' HD T.
    apply (ev_succ _ (fun f => pbind (parse_statement f (program (ts ++ rest'))) (fun st ts2 => POk [st] ts2))).
    - intros f. rewrite parse_block_eq. destruct (statement_hd_tok _ _ _ S) as (t & q & -> & _).
      rewrite (head_not_sym _ "{" T); [reflexivity|cbn; auto 10|exact N].
    - eapply ev_after; [apply (R rest' HD T)|reflexivity].
  Qed.

  Lemma name_reads t s rest : t_kind t = KName -> semi s rest -> reads_back parse_name_list (TTok t : tr) (t :: s) rest.
  Proof.
    intros K S rest' HD T. pose proof (semi_hd _ _ _ S HD) as S'. cbn [app] in *. inversion T as [|? ? _ T2]; subst.
    apply (ev_succ _ (fun _ => POk (TTok t) (program rest'))); [|apply ev_const].
    intros f. cbn [parse_name_list]. rewrite program_cons, K. apply semi_reads; assumption.
  Qed.

  Lemma name_list_reads (x : tr) xs ts s rest : reads_names (x :: xs) ts [sym "]"] -> semi s rest ->
    reads_back parse_name_list (TApp op_enlist (x :: xs)) (sym "[" :: ts ++ sym "]" :: s) rest.
  Proof.
    intros R S rest' HD T. pose proof (semi_hd _ _ _ S HD) as S'. cbn [app] in *. rewrite <- app_assoc in *. cbn [app] in *.
    inversion T as [|? ? _ T1]; subst. pose proof (toks_r _ _ T1) as T2. inversion T2 as [|? ? _ T3]; subst.
    apply (ev_succ _ (fun f => pbind (parse_names f (program (ts ++ sym "]" :: s ++ rest'))) (fun names ts2 =>
               match names with
               | [] => PErr BadSyntax
               | _ => match ts2 with
                      | [] => PErr PIndexError
                      | _ :: ts' => if head_is ts2 ";" then POk (TApp op_enlist names) ts' else POk (TApp op_enlist names) ts2
                      end
               end))); [intros f; reflexivity|].
    eapply ev_after; [apply (R (s ++ rest') eq_refl T1)|]. intros f. apply semi_reads; assumption.
  Qed.

  Lemma variable_hd_tok (x : tr) ts rest : variable x ts rest ->
    exists t ts', ts = t :: ts' /\ (t_kind t = KName \/ t = sym "[").
  Proof. intros [t s r K _|y ys us s r _ _]; eexists; eexists; split; try reflexivity; auto. Qed.

  Lemma names_read (x : tr) xs tx ts rest : variable x tx (ts ++ rest) -> reads_back parse_name_list x tx (ts ++ rest) ->
    reads_names xs ts rest -> reads_names (x :: xs) (tx ++ ts) rest.
  Proof.
    intros VX R RN rest' -> T. rewrite <- app_assoc in *. pose proof (toks_r _ _ T) as T2.
    apply (ev_succ _ (fun f => pbind (parse_name_list f (program (tx ++ ts ++ sym "]" :: rest'))) (fun x ts2 =>
             pbind (parse_names f ts2) (fun xs ts3 => POk (x :: xs) ts3)))).
    - intros f. destruct (variable_hd_tok _ _ _ VX) as (t & q & -> & K). cbn [app] in *.
      inversion T as [|? ? Tt _]; subst. cbn [parse_names]. rewrite program_cons, ParseProof.head_is_some.
      rewrite (text_not_sym t "]" Tt); [reflexivity|cbn; auto 10|]. intros ->. destruct K as [K|K]; discriminate K.
    - eapply ev_bind; [apply R; [apply hd_app; reflexivity|exact T]|]. cbv beta.
      eapply ev_after; [apply (RN rest' eq_refl T2)|reflexivity].
  Qed.

  Lemma no_names_read rest : reads_names [] [] rest.
  Proof.
    intros rest' -> T. apply (ev_succ _ (fun _ => POk [] (program rest'))); [|apply ev_const]. reflexivity.
  Qed.

  Scheme expr_m := Minimality for expr Sort Prop
  with links_m := Minimality for links Sort Prop
  with closed_m := Minimality for closed Sort Prop
  with items_m := Minimality for items Sort Prop
  with code_m := Minimality for code Sort Prop
  with statement_m := Minimality for statement Sort Prop
  with arguments_m := Minimality for arguments Sort Prop
  with argument_m := Minimality for argument Sort Prop
  with body_m := Minimality for body Sort Prop
  with variable_m := Minimality for variable Sort Prop
  with variables_m := Minimality for variables Sort Prop.

  Lemma code_complete (sts : list tr) ts rest : code sts ts rest -> reads_code sts ts rest.
  Proof.
    intros C.
    apply (code_m V grows grows_links
      (reads_back (fun f => parse_expr f (-1))) reads_items reads_code (reads_back parse_statement)
      (fun ty => reads_back (fun f => parse_args f ty)) (fun a => reads_back (parse_arg a))
      (reads_back parse_block) (reads_back parse_name_list) reads_names); try exact C.
    - exact atom_grows.
    - exact text_grows.
    - apply (paren_grows [] []). apply no_items_read.
    - intros e ts' CL R. apply (paren_grows [e] ts'). rewrite <- (app_nil_r ts').
      apply (items_read e [] ts' [] [sym ")"]); [exact CL|exact R|apply no_items_read].
    - intros a b es ts' _ R. apply (paren_grows (a :: b :: es) ts' R).
    - intros es ts' _ R. apply list_grows, R.
    - intros sts' ts' _ R. apply block_grows, R.
    - intros. apply prefix_grows; assumption.
    - intros. apply infix_grows; assumption.
    - intros. apply ternary_grows; assumption.
    - intros. apply chain_grows; assumption.
    - intros. apply last_link_grows; assumption.
    - intros. apply more_link_grows; assumption.
    - intros. apply closed_reads; assumption.
    - intros. apply no_items_read.
    - intros. apply items_read; assumption.
    - intros. apply no_code_reads.
    - intros. apply code_reads; assumption.
    - intros. apply expr_statement_reads; assumption.
    - intros. apply command_reads; assumption.
    - intros. apply no_args_read.
    - intros. apply args_read; assumption.
    - intros x ts' rest' _ R. exact R.
    - intros x ts' rest' _ R. exact R.
    - intros. apply code_arg_reads; assumption.
    - intros. apply else_reads; assumption.
    - intros. apply no_else_reads; assumption.
    - intros. apply block_body_reads; assumption.
    - intros. apply statement_body_reads; assumption.
    - intros. apply name_reads; assumption.
    - intros. apply name_list_reads; assumption.
    - intros. apply no_names_read.
    - intros. apply names_read; assumption.
  Qed.
End Complete.
