(** * The parser implements the grammar (C68) *)

From Coq Require Import String List NArith ZArith Bool Arith Lia.
From Verif Require Import PyStr StrFacts Tokens OpFun OpTable Parse ParseEq ParseMono SpecScan SpecRepr.
From Verif Require Import SpecGrammar.
From Verif Require SpecSyntax ParseProof ScanProof.
Import ListNotations.
Local Open Scope string_scope.
Local Open Scope list_scope.
Local Open Scope Z_scope.

Notation program := SpecSyntax.program.

(** ** Texts and kinds of tokens *)

Definition quoted (s : str) : bool :=
  match s with
  | c :: s' => is_digit c || N.eqb c 34 || N.eqb c 96 || N.eqb c 39
               || (N.eqb c 92 && match s' with d :: _ => N.eqb d 34 | [] => false end)
  | [] => true
  end.

Definition symbols : list string := ["]"; "["; "("; ")"; "{"; "}"; ";"; "$"; "\$"; "EL"].

Lemma literal_quoted t : token_text t ->
  In (t_kind t) [KNumber; KString; KPattern; KChar; KEscString; KNil] -> quoted (t_text t) = true.
Proof.
  intros T K. unfold token_text in T. cbn [In] in K.
  destruct K as [K|[K|[K|[K|[K|[K|[]]]]]]]; rewrite <- K in T.
  - assert (D : forall s r, digits s -> quoted (s ++ r) = true).
    { intros s r (N & F). destruct s as [|c s]; [destruct N; reflexivity|]. inversion F; subst.
      cbn [quoted app]. match goal with X : is_digit c = true |- _ => rewrite X end. reflexivity. }
    destruct T as [T|(a & b & -> & T & _)]; [|apply D, T]. rewrite <- (app_nil_r (t_text t)). apply D, T.
  - destruct T as (b & -> & _). cbn. rewrite ?orb_true_r. reflexivity.
  - destruct T as (b & -> & _). cbn. rewrite ?orb_true_r. reflexivity.
  - destruct T as (c & ->). cbn. rewrite ?orb_true_r. reflexivity.
  - destruct T as (b & -> & _). cbn. rewrite ?orb_true_r. reflexivity.
  - destruct T.
Qed.

Definition op_good (o : oper) : bool :=
  negb (quoted (o_text o)) && forallb (fun w => negb (str_eqb (o_text o) (s_ w))) symbols
  && forallb (fun c => negb (str_eqb (o_text o) (c_text c))) cmd_table
  && forallb (fun w => negb (str_eqb (o_text o) (s_ w))) ["PAREN"; "LIST"; "SEND"; "BLOCK"; "CHAIN"]
  && (0 <=? o_prec o) && negb (is_chain o)
  && ((o_arity o =? 1) || (o_arity o =? 2) || (o_arity o =? 3))%nat
  && forallb (fun p => negb ((2 <=? o_arity o) && (2 <=? o_arity p))%nat || negb (o_prec o =? o_prec p)
                       || assoc_eqb (o_assoc o) (o_assoc p)) all_ops
  && negb ((2 <=? o_arity o)%nat && assoc_eqb (o_assoc o) ANone)
  && (negb (assoc_eqb (o_assoc o) AChain) || ((o_prec o =? chain_precedence) && (o_arity o =? 2)%nat))
  && (negb ((2 <=? o_arity o)%nat && (o_prec o =? chain_precedence)) || assoc_eqb (o_assoc o) AChain).

Lemma table_good o : In o all_ops -> op_good o = true.
Proof.
  assert (C : forallb op_good all_ops = true) by (vm_compute; reflexivity).
  rewrite forallb_forall in C. apply C.
Qed.

Lemma in_table n t o : op_by_arity n t = Some o -> In o all_ops /\ o_text o = t /\ o_arity o = n.
Proof.
  unfold op_by_arity. intros F. apply find_some in F. destruct F as [I E].
  apply andb_prop in E. destruct E as [E1 E2]. apply Nat.eqb_eq in E1. apply str_eqb_eq in E2.
  split; [apply in_rev; exact I|auto].
Qed.

Record goods (o : oper) : Prop := {
  g_quoted : quoted (o_text o) = false;
  g_symbol : forall w, In w symbols -> o_text o <> s_ w;
  g_command : forall c, In c cmd_table -> o_text o <> c_text c;
  g_name : forall w, In w ["PAREN"; "LIST"; "SEND"; "BLOCK"; "CHAIN"] -> o_text o <> s_ w;
  g_prec : 0 <= o_prec o;
  g_chain : is_chain o = false;
  g_assoc : forall p, In p all_ops -> (2 <= o_arity o)%nat -> (2 <= o_arity p)%nat ->
      o_prec o = o_prec p -> o_assoc o = o_assoc p;
  g_infix : (2 <= o_arity o)%nat -> o_assoc o <> ANone;
  g_comparison : o_assoc o = AChain -> o_prec o = chain_precedence /\ o_arity o = 2%nat;
  g_chained : (2 <= o_arity o)%nat -> o_prec o = chain_precedence -> o_assoc o = AChain }.

Lemma assoc_eqb_eq a b : assoc_eqb a b = true <-> a = b.
Proof. destruct a, b; split; intro H; try discriminate H; reflexivity. Qed.

Lemma op_goods o : In o all_ops -> goods o.
Proof.
  intros I. pose proof (table_good o I) as F. unfold op_good in F.
  repeat (apply andb_prop in F; destruct F as [F ?]).
  repeat match goal with X : negb _ = true |- _ => apply negb_true_iff in X end.
  constructor; auto.
  - intros w J E. match goal with X : forallb _ symbols = true |- _ => rewrite forallb_forall in X; specialize (X w J) end.
    rewrite E, str_eqb_refl in *. discriminate.
  - intros w J E. match goal with X : forallb _ cmd_table = true |- _ => rewrite forallb_forall in X; specialize (X w J) end.
    cbv beta in *. rewrite E, str_eqb_refl in *. discriminate.
  - intros w J E. match goal with X : forallb _ ["PAREN"; _; _; _; _] = true |- _ => rewrite forallb_forall in X; specialize (X w J) end.
    cbv beta in *. rewrite E, str_eqb_refl in *. discriminate.
  - apply Z.leb_le. assumption.
  - intros p J A B E. match goal with X : forallb _ all_ops = true |- _ => rewrite forallb_forall in X; specialize (X p J); rename X into Y end.
    apply Nat.leb_le in A, B. cbv beta in Y. rewrite A, B, E, Z.eqb_refl in Y. apply assoc_eqb_eq, Y.
  - intros A E. apply Nat.leb_le in A. rewrite A, E in *. discriminate.
  - intros E. rewrite E in *. cbn [assoc_eqb negb orb] in *.
    match goal with X : (_ =? chain_precedence) && _ = true |- _ => apply andb_prop in X; destruct X as [X Y];
      apply Z.eqb_eq in X; apply Nat.eqb_eq in Y; auto end.
  - intros A E. apply Nat.leb_le in A. rewrite A, E, Z.eqb_refl in *. apply assoc_eqb_eq. assumption.
Qed.

Lemma operator_tok t o : token_text t -> In o all_ops -> t_text t = o_text o -> t = Tok KOperator (o_text o).
Proof.
  intros T I E. pose proof (op_goods o I) as G.
  assert (K : t_kind t = KOperator); [|destruct t; cbn in *; congruence].
  destruct (t_kind t) eqn:K; try reflexivity; exfalso;
    try (assert (Q : quoted (t_text t) = true) by (apply literal_quoted; [exact T|rewrite K; cbn; tauto]);
         rewrite E, (g_quoted o G) in Q; discriminate Q);
    unfold token_text in T; rewrite K in T.
  - destruct T as (c & J & X). apply (g_command o G c J). congruence.
  - apply in_map_iff in T. destruct T as (w & X & J). apply (g_symbol o G w J). congruence.
  - destruct T as (_ & X & _). apply X. exists o. auto.
Qed.

Lemma symbol_tok t w : token_text t -> In w symbols -> t_text t = s_ w -> t = sym w.
Proof.
  intros T I E.
  assert (K : t_kind t = KSymbol); [|destruct t; unfold sym; cbn in *; congruence].
  assert (Q0 : quoted (s_ w) = false).
  { unfold symbols in I. cbn [In] in I. repeat (destruct I as [<-|I]; [reflexivity|]). destruct I. }
  destruct (t_kind t) eqn:K; try reflexivity; exfalso;
    try (assert (Q : quoted (t_text t) = true) by (apply literal_quoted; [exact T|rewrite K; cbn; tauto]);
         rewrite E, Q0 in Q; discriminate Q);
    unfold token_text in T; rewrite K in T.
  - destruct T as (c & J & X). rewrite E in X. clear - I J X. revert J X. unfold cmd_table. cbn [In].
    unfold symbols in I. cbn [In] in I.
    intros J X. repeat (destruct J as [<-|J]; [repeat (destruct I as [<-|I]; [discriminate X|]); destruct I|]). destruct J.
  - destruct T as (o & J & X). apply (g_symbol o (op_goods o J) w I). congruence.
  - destruct T as (N & _ & _ & X). rewrite E in N, X. clear - I N X. unfold symbols in I. cbn [In] in I.
    repeat (destruct I as [<-|I];
      [try (destruct X; reflexivity); vm_compute in N; inversion N as [u A B C D|c A B C|A|c A B|c s A B C|n A B|c A B]; subst;
       try discriminate;
       try (inversion B as [|? ? B1 B2]; discriminate B1);
       try (destruct n as [|[|n]]; [lia|discriminate|discriminate]);
       try (destruct n as [|n]; [lia|discriminate]); try (cbn in A; intuition discriminate)|]).
    destruct I.
Qed.

(** ** Operators of the grammar *)

Record joins (o : oper) : Prop := {
  j_arity : o_arity o = 2%nat \/ o_arity o = 3%nat;
  j_prec : 0 <= o_prec o;
  j_table : exists p, In p all_ops /\ (2 <= o_arity p)%nat /\ o_prec p = o_prec o /\ o_assoc p = o_assoc o;
  j_chain : is_chain o = true -> o = op_chain }.

Lemma same_assoc o p : joins o -> joins p -> o_prec o = o_prec p -> o_assoc o = o_assoc p.
Proof.
  intros Ho Hp E. destruct (j_table o Ho) as (a & Ia & Aa & Pa & Sa).
  destruct (j_table p Hp) as (b & Ib & Ab & Pb & Sb).
  rewrite <- Sa, <- Sb. apply (g_assoc a (op_goods a Ia)); auto. congruence.
Qed.

Lemma between_table t o : between t o -> In o all_ops /\ o_text o = t /\ (o_arity o = 2%nat \/ o_arity o = 3%nat).
Proof.
  intros [H|H]; apply in_table in H; destruct H as (I & E & A); auto.
Qed.

Lemma assign_in : In assign_op all_ops /\ o_arity assign_op = 2%nat /\ o_assoc assign_op = ARight.
Proof.
  split; [|split; reflexivity]. apply (in_table 2 (s_ ":")). vm_compute. reflexivity.
Qed.

Lemma chain_joins : joins op_chain.
Proof.
  constructor; [left; reflexivity|vm_compute; discriminate| |reflexivity].
  destruct (op_by_arity 2 (s_ "<")) as [o|] eqn:E; [|discriminate E].
  exists o. destruct (in_table _ _ _ E) as (I & _ & A). split; [exact I|]. split; [lia|].
  vm_compute in E. injection E as <-. split; reflexivity.
Qed.

Lemma infix_joins ot o : infix ot o -> joins o /\ is_chain o = false /\ (o_assoc o = ALeft \/ o_assoc o = ARight).
Proof.
  intros [t p B A|t p B]; destruct (between_table _ _ B) as (I & E & R); pose proof (op_goods p I) as G.
  - split; [|split; [apply (g_chain p G)|]].
    + constructor; [exact R|apply (g_prec p G)| |rewrite (g_chain p G); discriminate].
      exists p. split; [exact I|]. split; [lia|auto].
    + pose proof (g_infix p G ltac:(lia)). destruct (o_assoc p); auto; congruence.
  - destruct assign_in as (I2 & A2 & S2).
    split; [|split; [apply (g_chain p G)|right; exact S2]].
    constructor; [exact R|vm_compute; discriminate| |].
    + exists assign_op. split; [exact I2|]. split; [lia|auto].
    + change (is_chain (storing p (o_assoc assign_op))) with (is_chain p). rewrite (g_chain p G). discriminate.
Qed.

Lemma comparison_facts t o : comparison t o ->
  op_by_arity 2 t = Some o /\ o_prec o = o_prec op_chain /\ o_assoc o = AChain /\ o_arity o = 2%nat /\ In o all_ops.
Proof.
  intros (B & A). destruct (between_table _ _ B) as (I & E & R). pose proof (op_goods o I) as G.
  destruct (g_comparison o G A) as (P & R2). repeat split; auto.
  destruct B as [B|B]; [exact B|]. apply in_table in B. lia.
Qed.

Lemma bare_facts ts o : bare ts o ->
  o_arity o = 1%nat /\ 0 <= o_prec o /\ is_chain o = false
  /\ (forall w, In w ["PAREN"; "LIST"; "SEND"; "BLOCK"; "CHAIN"] -> o_text o <> s_ w).
Proof.
  intros [t p H|t p H|t p H]; apply in_table in H; destruct H as (I & E & A);
    destruct (op_goods p I); auto.
Qed.

Lemma named_bracket o : (forall w, In w ["PAREN"; "LIST"; "SEND"; "BLOCK"; "CHAIN"] -> o_text o <> s_ w) -> ~ bracket o.
Proof.
  intros H [E|[E|[E|E]]]; subst o.
  - apply (H "PAREN"); cbn; auto.
  - apply (H "LIST"); cbn; auto.
  - apply (H "SEND"); cbn; auto.
  - apply (H "BLOCK"); cbn; auto.
Qed.

Lemma assign_prec : 0 <= o_prec assign_op.
Proof. vm_compute. discriminate. Qed.

Lemma prefix_facts ts o : prefix ts o ->
  o_arity o = 1%nat /\ 0 <= o_prec o /\ is_chain o = false /\ ~ bracket o.
Proof.
  intros [ts' p H|ts' p H|ts' p H|ts' p H]; destruct (bare_facts _ _ H) as (A & P & C & N);
    repeat split; auto; try (apply named_bracket; exact N); try apply assign_prec.
Qed.

(** What an expression starts with. *)
Definition starter (t : token) : Prop :=
  In (t_kind t) [KName; KNumber; KString; KPattern; KChar; KEscString]
  \/ In t (map sym ["("; "["; "{"; "$"; "\$"])
  \/ exists s o, t = Tok KOperator s /\ op_by_arity 1 s = Some o.

Lemma bare_starts ts o : bare ts o -> exists t ts', ts = t :: ts' /\ starter t.
Proof.
  intros [t p H|t p H|t p H]; eexists; eexists; split; try reflexivity; unfold starter.
  - right. right. exists t, p. auto.
  - right. left. cbn. auto 10.
  - right. left. cbn. auto 10.
Qed.

Lemma prefix_starts ts o : prefix ts o -> exists t ts', ts = t :: ts' /\ starter t.
Proof.
  intros [ts' p H|ts' p H|ts' p H|ts' p H]; destruct (bare_starts _ _ H) as (t & r & -> & S);
    cbn [app]; eauto.
Qed.

Section Facts.
  Context {V : Type}.
  Local Notation tr := (tree V).

  Lemma expr_starts : forall (e : tr) ts, expr e ts -> exists t ts', ts = t :: ts' /\ starter t.
  Proof.
    intros e ts E. induction E; cbn [app];
      try (destruct IHE as (k & r & -> & S); cbn [app]; eauto; fail);
      try (destruct IHE1 as (k & r & -> & S); cbn [app]; eauto; fail).
    - exists t, []. split; [reflexivity|]. left. cbn in *. tauto.
    - exists t, []. split; [reflexivity|]. left. destruct H; cbn; auto 10.
    - eexists; eexists; split; [reflexivity|]. right; left; cbn; auto.
    - eexists; eexists; split; [reflexivity|]. right; left; cbn; auto.
    - eexists; eexists; split; [reflexivity|]. right; left; cbn; auto.
    - eexists; eexists; split; [reflexivity|]. right; left; cbn; auto.
    - eexists; eexists; split; [reflexivity|]. right; left; cbn; auto.
    - destruct (prefix_starts _ _ H) as (k & r & -> & S). cbn [app]. eauto.
    - destruct IHE1 as (k & q & -> & S). exists k. eexists. split; [reflexivity|exact S].
    - destruct IHE1 as (k & q & -> & S). exists k. eexists. split; [reflexivity|exact S].
  Qed.

  (** Only the first token of what follows matters. *)
  Lemma hd_app (ts a b : list token) : hd_error a = hd_error b -> hd_error (ts ++ a) = hd_error (ts ++ b).
  Proof. intro H. destruct ts; [exact H|reflexivity]. Qed.

  Lemma semi_hd s a b : semi s a -> hd_error a = hd_error b -> semi s b.
  Proof. intros [r H|r] E; [|constructor]. constructor. rewrite <- E. exact H. Qed.

  Lemma ahead_hd a b : hd_error a = hd_error b -> operator_ahead a -> operator_ahead b.
  Proof.
    intros E (t & o & r & -> & B). destruct b as [|k b]; [discriminate E|]. injection E as <-.
    exists t, o, b. auto.
  Qed.

  Lemma closed_hd (e : tr) ts a b : closed e ts a -> hd_error a = hd_error b -> closed e ts b.
  Proof.
    intros H E. destruct H as [e ts s rest X S N]. constructor; [exact X|eapply semi_hd; eassumption|].
    intros Y A. apply (N Y). apply (ahead_hd b); auto.
  Qed.

  Scheme variable_ind' := Minimality for variable Sort Prop
  with variables_ind' := Minimality for variables Sort Prop.

  Lemma variable_hd (x : tr) ts a b : variable x ts a -> hd_error a = hd_error b -> variable x ts b.
  Proof.
    intros H E. destruct H; constructor; auto; eapply semi_hd; eassumption.
  Qed.

  Scheme code_i := Minimality for code Sort Prop
  with statement_i := Minimality for statement Sort Prop
  with arguments_i := Minimality for arguments Sort Prop
  with argument_i := Minimality for argument Sort Prop
  with body_i := Minimality for body Sort Prop.
  Combined Scheme code_all from code_i, statement_i, arguments_i, argument_i, body_i.

  Definition by_hd (P : list token -> Prop) (a : list token) : Prop :=
    forall b, hd_error a = hd_error b -> P b.

  Lemma code_hd_all :
    (forall (sts : list tr) ts a, code sts ts a -> by_hd (code sts ts) a)
    /\ (forall (st : tr) ts a, statement st ts a -> by_hd (statement st ts) a)
    /\ (forall ty (xs : list tr) ts a, arguments ty xs ts a -> by_hd (arguments ty xs ts) a)
    /\ (forall ty (x : tr) ts a, argument ty x ts a -> by_hd (argument ty x ts) a)
    /\ (forall (sts : list tr) ts a, body sts ts a -> by_hd (body sts ts) a).
  Proof.
    apply code_all; unfold by_hd.
    - intros; constructor.
    - intros. constructor; auto. apply H0, hd_app. assumption.
    - intros. constructor; [eapply closed_hd; [eassumption|apply hd_app; assumption]|eapply semi_hd; eassumption].
    - intros. constructor; auto; [apply H1, hd_app; assumption|eapply semi_hd; eassumption].
    - intros; constructor.
    - intros. constructor; auto. apply H0, hd_app. assumption.
    - intros. constructor. eapply variable_hd; eassumption.
    - intros. constructor. eapply closed_hd; eassumption.
    - intros. constructor. auto.
    - intros. constructor. auto.
    - intros rest H b E. constructor. congruence.
    - intros. constructor. assumption.
    - intros. constructor; auto.
  Qed.

  Lemma code_hd (sts : list tr) ts a b : code sts ts a -> hd_error a = hd_error b -> code sts ts b.
  Proof. intros H. apply (proj1 code_hd_all _ _ _ H). Qed.

  (** ** Operations of infix operators *)

  Definition below (p o : oper) : bool :=
    (o_prec p <? o_prec o) || ((o_prec p =? o_prec o) && assoc_eqb (o_assoc o) ARight).

  Lemma below_true p o : joins p -> joins o -> below p o = true ->
    o_prec o > o_prec p \/ o_prec o = o_prec p /\ o_assoc p = ARight.
  Proof.
    intros Hp Ho H. apply orb_prop in H. destruct H as [H|H].
    - apply Z.ltb_lt in H. lia.
    - apply andb_prop in H. destruct H as [H1 H2]. apply Z.eqb_eq in H1. right.
      split; [lia|]. rewrite (same_assoc p o Hp Ho H1). apply assoc_eqb_eq, H2.
  Qed.

  Lemma below_false p o : below p o = false -> o_prec p > o_prec o \/ o_prec p = o_prec o /\ o_assoc o <> ARight.
  Proof.
    intros H. apply orb_false_elim in H. destruct H as [H1 H2]. apply Z.ltb_ge in H1.
    destruct (Z.eq_dec (o_prec p) (o_prec o)) as [E|E]; [|lia]. right. split; [exact E|].
    rewrite E, Z.eqb_refl in H2. intros A. rewrite A in H2. discriminate.
  Qed.

  Definition infixy (o : oper) : Prop := is_chain o = false /\ (o_assoc o = ALeft \/ o_assoc o = ARight).

  Lemma links_split (ls : list tr) ts : links ls ts -> exists front y tf ty,
    ls = front ++ [y] /\ ts = tf ++ ty /\ expr y ty /\ right_ok op_chain y
    /\ (forall y' ty', expr y' ty' -> right_ok op_chain y' -> links (front ++ [y']) (tf ++ ty'))
    /\ (left_ok op_chain y -> forall t o x tx, comparison t o -> expr x tx -> right_ok op_chain x ->
        links (ls ++ [TOpr o; x]) (ts ++ Tok KOperator t :: tx)).
  Proof.
    induction 1 as [t o e te C E R|t o e te ls tl C E R L LS IH].
    - exists [TOpr o], e, [Tok KOperator t], te.
      split; [reflexivity|]. split; [reflexivity|]. split; [exact E|]. split; [exact R|]. split.
      + intros y' ty' E' R'. exact (link_last t o y' ty' C E' R').
      + intros L t2 o2 x tx C2 E2 R2. change ((Tok KOperator t :: te) ++ Tok KOperator t2 :: tx)
          with (Tok KOperator t :: te ++ Tok KOperator t2 :: tx).
        apply (link_more t o e te [TOpr o2; x]); auto. constructor; auto.
    - destruct IH as (front & y & tf & ty & -> & -> & Ey & Ry & Rep & App).
      exists (TOpr o :: e :: front), y, (Tok KOperator t :: te ++ tf), ty.
      split; [reflexivity|]. split; [cbn [app]; rewrite <- app_assoc; reflexivity|].
      split; [exact Ey|]. split; [exact Ry|]. split.
      + intros y' ty' E' R'. cbn [app]. rewrite <- app_assoc. apply link_more; auto.
      + intros Ly t2 o2 x tx C2 E2 R2.
        specialize (App Ly t2 o2 x tx C2 E2 R2). cbn [app]. rewrite <- (app_assoc te (tf ++ ty)).
        apply link_more; auto.
  Qed.

  Lemma expr_split (e : tr) te p : expr e te -> rooted e p ->
    joins p /\ (infixy p \/ p = op_chain) /\ exists front y tf ty,
      e = TApp p (front ++ [y]) /\ te = tf ++ ty /\ expr y ty /\ right_ok p y
      /\ forall y' more, expr y' (ty ++ more) -> right_ok p y' -> expr (TApp p (front ++ [y'])) (tf ++ ty ++ more).
  Proof.
    intros E (args & -> & A). inversion E as
      [| | | | | | | o x ot tx P X O|o l r ot tl tx I Ar L R LO RO|o l m r ot tl tm tx I Ar L M R LO RO|e ls te' tl X0 LO L]; subst;
      try (cbn in A; lia).
    - match goal with H : interpolated _ _ |- _ => inversion H; subst; cbn in A; lia end.
    - destruct (prefix_facts _ _ P) as (B & _). lia.
    - destruct (infix_joins _ _ I) as (J & C & S). split; [exact J|]. split; [left; split; auto|].
      exists [l], r, (tl ++ ot), tx. split; [reflexivity|]. split; [apply app_assoc|].
      split; [exact R|]. split; [exact RO|]. intros y' more X Y. rewrite <- app_assoc. apply ex_infix; auto.
    - destruct (infix_joins _ _ I) as (J & C & S). split; [exact J|]. split; [left; split; auto|].
      exists [l; m], r, (tl ++ ot ++ tm), tx. split; [reflexivity|]. split; [rewrite <- !app_assoc; reflexivity|].
      split; [exact R|]. split; [exact RO|]. intros y' more X Y. rewrite <- !app_assoc.
      apply ex_ternary; auto. apply (closed_hd m tm tx); [exact M|].
      destruct (expr_starts _ _ R) as (k & q & -> & _). reflexivity.
    - split; [exact chain_joins|]. split; [right; reflexivity|].
      destruct (links_split _ _ L) as (front & y & tf & ty & -> & -> & Ey & Ry & Rep & _).
      exists (e :: front), y, (te' ++ tf), ty. split; [reflexivity|]. split; [apply app_assoc|].
      split; [exact Ey|]. split; [exact Ry|]. intros y' more X Y. rewrite <- app_assoc.
      apply (ex_chain e (front ++ [y'])); auto.
  Qed.

  Lemma chain_app (args : list tr) te : expr (TApp op_chain args) te ->
    (forall p, edge (TApp op_chain args) p -> o_prec op_chain <= o_prec p) ->
    forall t o x tx, comparison t o -> expr x tx -> right_ok op_chain x ->
    expr (TApp op_chain (args ++ [TOpr o; x])) (te ++ Tok KOperator t :: tx).
  Proof.
    intros E ED t o x tx C X R. inversion E as
      [| | | | | | | o' x' ot tx' P|o' l r ot tl tx' I|o' l m r ot tl tm tx' I|e ls te' tl Y LO L]; subst.
    - match goal with H : interpolated _ _ |- _ => inversion H end.
    - destruct (prefix_facts _ _ P) as (B & _). discriminate B.
    - destruct (infix_joins _ _ I) as (_ & B & _). discriminate B.
    - destruct (infix_joins _ _ I) as (_ & B & _). discriminate B.
    - destruct (links_split _ _ L) as (front & y & tf & ty & E1 & E2 & Ey & Ry & _ & App).
      change ((e :: ls) ++ [TOpr o; x]) with (e :: (ls ++ [TOpr o; x])). rewrite <- app_assoc.
      apply ex_chain; auto. apply App; auto. split.
      + intros p Rp. destruct (Ry p Rp) as [H|(_ & H)]; [auto|discriminate H].
      + intros p Ep. apply ED. subst ls. change (e :: front ++ [y]) with ((e :: front) ++ [y]).
        apply edge_infix; [left; reflexivity|exact Ep].
  Qed.

  Lemma edge_inv o (front : list tr) x p : joins o -> edge (TApp o (front ++ [x])) p -> edge x p.
  Proof.
    intros J E. pose proof (j_arity o J) as A. inversion E as [o' x' B|o' x' p' B|o' f' x' p' B X]; subst; [lia|lia|].
    match goal with Q : _ ++ [_] = _ ++ [_] |- _ => apply app_inj_tail in Q; destruct Q as [_ Q]; subst end. exact X.
  Qed.

  Lemma depth_last o (front : list tr) y : spine_depth (TApp o (front ++ [y])) = S (spine_depth y).
  Proof.
    cbn [spine_depth]. f_equal. induction front as [|a front IH]; [reflexivity|]. cbn [app].
    rewrite <- IH. destruct (front ++ [y]) eqn:E; [destruct front; discriminate E|reflexivity].
  Qed.

  Lemma bubble_below n o p (front : list tr) y : joins p -> below p o = true ->
    bubble_fuel (S n) o (TApp p (front ++ [y]))
    = let '(spine, act) := bubble_fuel n o y in ((p, front) :: spine, act).
  Proof.
    intros J B. cbn [bubble_fuel]. fold (below p o). rewrite B.
    assert (A : (o_arity p =? 2)%nat || (o_arity p =? 3)%nat = true).
    { apply orb_true_iff. rewrite !Nat.eqb_eq. apply (j_arity p J). }
    rewrite A, rev_app_distr. cbn [andb rev app]. rewrite rev_involutive. reflexivity.
  Qed.

  Lemma insert_sound o mid x ots : joins o -> infixy o \/ o = op_chain ->
    (forall (l : tr) tl, expr l tl -> left_ok o l -> expr (TApp o (l :: mid ++ [x])) (tl ++ ots)) ->
    (o = op_chain -> forall args tl, expr (TApp op_chain args) tl ->
       (forall p, edge (TApp op_chain args) p -> o_prec op_chain <= o_prec p) ->
       expr (TApp op_chain (args ++ mid ++ [x])) (tl ++ ots)) ->
    forall n e te, expr e te -> (forall p, edge e p -> o_prec o <= o_prec p) -> (spine_depth e <= n)%nat ->
    let '(spine, (aop, aargs)) := bubble_fuel n o e in
    let e' := rebuild spine (TApp aop (aargs ++ mid ++ [x])) in
    expr e' (te ++ ots) /\ (forall p, rooted e' p -> p = o \/ rooted e p) /\ (forall p, edge e' p -> edge x p).
  Proof.
    intros J T K1 K2. induction n as [|n IH]; intros e te E ED D.
    { destruct e; cbn in D; lia. }
    assert (WRAP : left_ok o e -> expr (TApp o (e :: mid ++ [x])) (te ++ ots)
        /\ (forall p, rooted (TApp o (e :: mid ++ [x])) p -> p = o \/ rooted e p)
        /\ (forall p, edge (TApp o (e :: mid ++ [x])) p -> edge x p)).
    { intros L. split; [apply K1; auto|]. split.
      - intros p (args & EQ & _). left. congruence.
      - intros p X. change (e :: mid ++ [x]) with ((e :: mid) ++ [x]) in X. eapply edge_inv; eassumption. }
    assert (LEAF : (forall p, ~ rooted e p) -> left_ok o e).
    { intros N. split; [intros p R; destruct (N p R)|exact ED]. }
    destruct e as [t|v|q|q largs|sts|c args];
      try (apply WRAP, LEAF; intros p (args' & EQ & _); discriminate EQ).
    destruct ((o_arity q =? 2)%nat || (o_arity q =? 3)%nat) eqn:A.
    - assert (R : rooted (TApp q largs) q).
      { exists largs. split; [reflexivity|]. apply orb_prop in A. rewrite !Nat.eqb_eq in A. exact A. }
      destruct (expr_split _ _ _ E R) as (Jq & Tq & front & y & tf & ty & EQ & -> & Ey & Ry & Rep).
      injection EQ as ->. destruct (below q o) eqn:B.
      + rewrite (bubble_below n o q front y Jq B).
        assert (EDy : forall p, edge y p -> o_prec o <= o_prec p).
        { intros p X. apply ED, edge_infix; [apply (j_arity q Jq)|exact X]. }
        rewrite depth_last in D. specialize (IH y ty Ey EDy ltac:(lia)).
        destruct (bubble_fuel n o y) as [spine [aop aargs]]. cbn [rebuild fold_right].
        fold (rebuild spine (TApp aop (aargs ++ mid ++ [x]))) in *.
        destruct IH as (I1 & I2 & I3). rewrite <- app_assoc. split; [|split].
        * apply Rep; [exact I1|]. intros p Rp. destruct (I2 p Rp) as [->|Rp'].
          -- apply below_true; auto.
          -- apply Ry, Rp'.
        * intros p (args & X & Y). right. injection X as -> _. exists (front ++ [y]). auto.
        * intros p X. apply I3. eapply edge_inv; eassumption.
      + cbn [bubble_fuel]. fold (below q o). rewrite A, B. cbn [andb].
        destruct (is_chain o && is_chain q) eqn:CC.
        * apply andb_prop in CC. destruct CC as [C1 C2]. apply (j_chain o J) in C1. apply (j_chain q Jq) in C2. subst.
          cbn [rebuild fold_right]. split; [apply K2; auto|]. split.
          -- intros p (args & X & _). left. congruence.
          -- intros p X. rewrite app_assoc in X. eapply edge_inv; [exact chain_joins|exact X].
        * apply WRAP. split; [|exact ED]. intros p (args & X & _).
          assert (p = q) by congruence. subst p. destruct (below_false _ _ B) as [P|(P & S)]; [auto|].
          right. split; [exact P|]. destruct T as [(C & [S'|S'])| ->]; [exact S'|congruence|].
          exfalso. destruct Tq as [(C' & S')| ->]; [|discriminate CC].
          rewrite (same_assoc q op_chain Jq J P) in S'. destruct S' as [S'|S']; discriminate S'.
    - cbn [bubble_fuel]. rewrite A. cbn [andb].
      assert (NR : forall p, ~ rooted (TApp q largs) p).
      { intros p (args & X & Y). injection X as <- <-. apply not_true_iff_false in A. apply A.
        apply orb_true_iff. rewrite !Nat.eqb_eq. exact Y. }
      destruct (is_chain o && is_chain q) eqn:CC; [|apply WRAP, LEAF, NR].
      exfalso. apply andb_prop in CC. destruct CC as [_ C].
      inversion E; subst; try discriminate C; try (apply (NR op_chain); eexists; split; [reflexivity|left; reflexivity]).
      + match goal with H : interpolated _ _ |- _ => inversion H; subst; discriminate C end.
      + match goal with H : prefix _ _ |- _ => apply prefix_facts in H; destruct H as (_ & _ & H & _); congruence end.
      + match goal with H : infix _ _ |- _ => apply infix_joins in H; destruct H as (_ & H & _); congruence end.
      + match goal with H : infix _ _ |- _ => apply infix_joins in H; destruct H as (_ & H & _); congruence end.
  Qed.
End Facts.
