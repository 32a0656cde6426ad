(** * Operator precedence: the parser builds the unique well-grouped tree *)

From Coq Require Import String List NArith ZArith Bool Arith Lia.
From Verif Require Import PyStr StrFacts Tokens OpFun OpTable Parse ParseEq SpecSyntax.
Import ListNotations.
Local Open Scope Z_scope.

Lemma in_table : forall n text o, op_by_arity n text = Some o ->
  In o all_ops /\ o_arity o = n /\ o_text o = text.
Proof.
  intros n text o H. unfold op_by_arity in H. apply find_some in H. destruct H as [Hin H].
  apply andb_prop in H. destruct H as [H1 H2]. apply Nat.eqb_eq in H1. apply str_eqb_eq in H2.
  rewrite <- in_rev in Hin. auto.
Qed.

(** The associativity of binary operators is a function of the precedence. *)
Lemma table_assoc : forall a b, In a all_ops -> In b all_ops ->
  o_arity a = 2%nat -> o_arity b = 2%nat -> o_prec a = o_prec b -> o_assoc a = o_assoc b.
Proof.
  assert (C : forallb (fun a => forallb (fun b =>
      negb (Nat.eqb (o_arity a) 2) || negb (Nat.eqb (o_arity b) 2)
      || negb (o_prec a =? o_prec b) || assoc_eqb (o_assoc a) (o_assoc b)) all_ops) all_ops = true)
    by (vm_compute; reflexivity).
  intros a b Ha Hb A1 A2 E. rewrite forallb_forall in C. specialize (C a Ha). cbv beta in C.
  rewrite forallb_forall in C. specialize (C b Hb). cbv beta in C.
  rewrite A1, A2, E, Z.eqb_refl in C. simpl in C. destruct (o_assoc a), (o_assoc b); try discriminate; reflexivity.
Qed.

Lemma table_facts : forall o, In o all_ops -> 0 <= o_prec o /\ is_chain o = false.
Proof.
  assert (C : forallb (fun a => (0 <=? o_prec a) && negb (is_chain a)) all_ops = true)
    by (vm_compute; reflexivity).
  intros o H. rewrite forallb_forall in C. specialize (C o H). cbv beta in C.
  apply andb_prop in C. destruct C as [C1 C2]. apply Z.leb_le in C1. apply negb_true_iff in C2. auto.
Qed.

Lemma assign_in : In assign_op all_ops /\ o_arity assign_op = 2%nat /\ o_assoc assign_op = ARight.
Proof.
  split; [|split; reflexivity]. apply (in_table 2 (s_ ":")). vm_compute. reflexivity.
Qed.

Record is_infix (o : oper) : Prop := {
  inf_arity : o_arity o = 2%nat;
  inf_chain : is_chain o = false;
  inf_prec : 0 <= o_prec o;
  inf_assoc : o_assoc o = ALeft \/ o_assoc o = ARight;
  inf_table : exists p, In p all_ops /\ o_arity p = 2%nat /\ o_prec p = o_prec o /\ o_assoc p = o_assoc o }.

Lemma infix_is : forall ts o, infix ts o -> is_infix o.
Proof.
  intros ts o [t p K H A|t c p K H A].
  - destruct (in_table _ _ _ H) as (I & Ar & _). destruct (table_facts p I) as [P C].
    constructor; auto. exists p. auto.
  - destruct (in_table _ _ _ H) as (I & Ar & _). destruct (table_facts p I) as [P C].
    destruct assign_in as (I2 & A2 & As).
    constructor; simpl; auto; try (destruct (table_facts _ I2); assumption).
    exists assign_op. auto.
Qed.

Lemma same_assoc : forall o p, is_infix o -> is_infix p -> o_prec o = o_prec p -> o_assoc o = o_assoc p.
Proof.
  intros o p Ho Hp E. destruct (inf_table o Ho) as (a & Ia & Aa & Pa & Sa).
  destruct (inf_table p Hp) as (b & Ib & Ab & Pb & Sb).
  rewrite <- Sa, <- Sb. apply table_assoc; auto. congruence.
Qed.

Section Prec.
  Context {V : Type}.
  Local Notation tr := (tree V).

  (** Where an operator of precedence [o_prec o] goes below operator [p]. *)
  Definition below (p o : oper) : bool :=
    (o_prec p <? o_prec o) || ((o_prec p =? o_prec o) && assoc_eqb (o_assoc o) ARight).

  Fixpoint insert (o : oper) (x e : tr) : tr :=
    match e with
    | TApp p [l; r] => if below p o then TApp p [l; insert o x r] else TApp o [e; x]
    | _ => TApp o [e; x]
    end.

  (** Trees of the grammar. *)
  Inductive shaped : tr -> Prop :=
  | shaped_tok : forall t, shaped (TTok t)
  | shaped_paren : forall e, shaped e -> shaped (TApp op_paren [e])
  | shaped_infix : forall o l r, is_infix o -> shaped l -> shaped r -> shaped (TApp o [l; r]).

  Lemma spells_shaped : forall t ts, spells t ts -> shaped t.
  Proof.
    induction 1; constructor; auto. eapply infix_is; eassumption.
  Qed.

  Definition leaf (x : tr) : Prop :=
    match x with TApp _ [_; _] => False | _ => True end.

  Lemma bubble_insert : forall n o x e, is_infix o -> shaped e -> (spine_depth e <= n)%nat ->
    (let '(spine, (aop, aargs)) := bubble_fuel n o e in
     rebuild spine (TApp aop (aargs ++ [x]))) = insert o x e.
  Proof.
    induction n as [|n IH]; intros o x e Ho S L.
    - destruct S; simpl in L; lia.
    - destruct S as [t|e S|p l r Hp Sl Sr].
      + reflexivity.
      + simpl bubble_fuel. rewrite (inf_chain o Ho). reflexivity.
      + cbn [bubble_fuel insert]. rewrite (inf_arity p Hp). rewrite (inf_chain o Ho).
        change ((2 =? 2)%nat || (2 =? 3)%nat) with true. cbn [andb].
        fold (below p o). destruct (below p o); [|reflexivity].
        change (rev [l; r]) with [r; l]. cbv iota.
        specialize (IH o x r Ho Sr). 
        assert (Lr : (spine_depth r <= n)%nat) by (simpl in L; lia). specialize (IH Lr).
        destruct (bubble_fuel n o r) as [spine [aop aargs]]. simpl. rewrite IH. reflexivity.
  Qed.

  Lemma insert_shaped : forall o x e, is_infix o -> shaped x -> shaped e -> shaped (insert o x e).
  Proof.
    intros o x e Ho Sx S. induction S as [t|e S IH|p l r Hp Sl IHl Sr IHr]; cbn [insert].
    - apply shaped_infix; auto; constructor.
    - apply shaped_infix; auto. constructor. exact S.
    - destruct (below p o); apply shaped_infix; auto. apply shaped_infix; auto.
  Qed.

  Lemma below_true : forall p o, is_infix p -> is_infix o -> below p o = true ->
    o_prec o > o_prec p \/ o_prec o = o_prec p /\ o_assoc p = ARight.
  Proof.
    intros p o Hp Ho H. apply orb_prop in H. destruct H as [H|H].
    - apply Z.ltb_lt in H. lia.
    - apply andb_prop in H. destruct H as [H1 H2]. apply Z.eqb_eq in H1. right.
      split; [lia|]. rewrite (same_assoc p o Hp Ho H1). destruct (o_assoc o); try discriminate; reflexivity.
  Qed.

  Lemma below_false : forall p o, is_infix p -> is_infix o -> below p o = false ->
    o_prec p > o_prec o \/ o_prec p = o_prec o /\ o_assoc o = ALeft.
  Proof.
    intros p o Hp Ho H. apply orb_false_elim in H. destruct H as [H1 H2]. apply Z.ltb_ge in H1.
    destruct (Z.eq_dec (o_prec p) (o_prec o)) as [E|E]; [|lia]. right. split; [exact E|].
    rewrite E, Z.eqb_refl in H2. destruct (inf_assoc o Ho) as [A|A]; [exact A|].
    rewrite A in H2. discriminate.
  Qed.

  Lemma insert_right : forall q o x e, is_infix q -> is_infix o -> shaped e ->
    right_of q e -> below q o = true -> right_of q (insert o x e).
  Proof.
    intros q o x e Hq Ho S R B.
    assert (K : right_of q (TApp o [e; x])) by (apply (below_true q o); auto).
    destruct S as [t|e S|p l r Hp Sl Sr]; cbn [insert]; auto.
    destruct (below p o); [exact R|exact K].
  Qed.

  Lemma insert_grouped : forall o x e, is_infix o -> grouped x -> leaf x -> shaped e -> grouped e ->
    grouped (insert o x e).
  Proof.
    intros o x e Ho Gx Lx S.
    assert (Rx : right_of o x).
    { destruct x as [| | |p [|a [|b [|c l]]]| |]; try exact I. destruct Lx. }
    induction S as [t|e S IH|p l r Hp Sl IHl Sr IHr]; intro G; cbn [insert].
    - constructor; auto. exact I.
    - constructor; auto. exact I.
    - inversion G as [| |o' l' r' Gl Gr L R E1]; subst.
      destruct (below p o) eqn:B.
      + constructor; auto. apply insert_right; auto.
      + constructor; auto. apply below_false; auto.
  Qed.

  Lemma insert_spells : forall o ot x xs e ts, infix ot o -> spells x xs -> spells e ts ->
    spells (insert o x e) (ts ++ ot ++ xs).
  Proof.
    intros o ot x xs e ts Io Sx S. induction S as [t A|e ts S IH|p l r tl pt tr Ip Sl IHl Sr IHr]; cbn [insert].
    - apply spells_infix; auto. constructor; auto.
    - apply spells_infix; auto. constructor; auto.
    - destruct (below p o).
      + rewrite <- !app_assoc. apply spells_infix; auto.
      + apply spells_infix; auto. apply spells_infix; auto.
  Qed.

  (** The operands and operators of a tree, outside parentheses. *)
  Fixpoint first_leaf (t : tr) : tr :=
    match t with TApp _ [l; _] => first_leaf l | _ => t end.
  Fixpoint steps (t : tr) : list (oper * tr) :=
    match t with
    | TApp o [l; r] => steps l ++ (o, first_leaf r) :: steps r
    | _ => []
    end.
  Definition build (x : tr) (l : list (oper * tr)) : tr :=
    fold_left (fun e p => insert (fst p) (snd p) e) l x.

  Lemma left_insert : forall o x l, shaped l -> is_infix o -> left_of o l ->
    insert o x l = TApp o [l; x].
  Proof.
    intros o x l S Ho L. destruct S as [t|e S|p a b Hp Sa Sb]; cbn [insert]; try reflexivity.
    destruct (below p o) eqn:B; [|reflexivity]. exfalso.
    apply (below_true p o) in B; auto. simpl in L. destruct B as [B|[B1 B2]], L as [L|[L1 L2]]; try lia.
    rewrite (same_assoc p o Hp Ho) in B2 by lia. congruence.
  Qed.

  (** Operators inside the right operand go below [o]. *)
  Lemma steps_below : forall o t, is_infix o -> shaped t -> grouped t -> right_of o t ->
    Forall (fun p => below o (fst p) = true) (steps t).
  Proof.
    intros o t Ho S. induction S as [u|e S IH|p l r Hp Sl IHl Sr IHr]; intros G R; try constructor.
    inversion G as [| |o' l' r' Gl Gr Lf Rt E1]; subst. cbn [steps].
    assert (P : below o p = true).
    { simpl in R. unfold below. destruct R as [R|[R1 R2]].
      - apply orb_true_intro. left. apply Z.ltb_lt. lia.
      - apply orb_true_intro. right. rewrite <- R1, Z.eqb_refl.
        rewrite (same_assoc p o Hp Ho R1), R2. reflexivity. }
    assert (T : forall c, shaped c -> (left_of p c \/ right_of p c) -> right_of o c).
    { intros c Sc H. destruct Sc as [u|e Sc|q a b Hq Sa Sb]; try exact I. simpl in *.
      assert (o_prec q >= o_prec p) by (destruct H as [[H|[H _]]|[H|[H _]]]; lia).
      destruct R as [R|[R1 R2]]; [left; lia|].
      destruct (Z.eq_dec (o_prec q) (o_prec p)); [right; split; [lia|exact R2]|left; lia]. }
    apply Forall_app. split; [apply IHl; auto|]. constructor; [exact P|]. apply IHr; auto.
  Qed.

  Lemma build_under : forall o a l e, Forall (fun p => below o (fst p) = true) l ->
    build (TApp o [a; e]) l = TApp o [a; build e l].
  Proof.
    intros o a l. induction l as [|p l IH]; intros e F; [reflexivity|].
    inversion F as [|p' l' B F' E1]; subst. unfold build in *. cbn [fold_left insert]. rewrite B.
    apply IH, F'.
  Qed.

  Lemma build_steps : forall t, shaped t -> grouped t -> build (first_leaf t) (steps t) = t.
  Proof.
    intros t S. induction S as [u|e S IH|o l r Ho Sl IHl Sr IHr]; intro G; try reflexivity.
    inversion G as [| |o' l' r' Gl Gr Lf Rt E1]; subst. cbn [first_leaf steps].
    unfold build. rewrite fold_left_app. change (fold_left _ (steps l) (first_leaf l)) with
      (build (first_leaf l) (steps l)). rewrite (IHl Gl). cbn [fold_left fst snd].
    rewrite left_insert by auto.
    change (build (TApp o [l; first_leaf r]) (steps r) = TApp o [l; r]).
    rewrite build_under by (apply steps_below; auto). rewrite IHr by exact Gr. reflexivity.
  Qed.

  (** ** The parser on a spelled tree *)

  Definition stops (rest : toklist) : Prop :=
    match rest with
    | None :: _ => True
    | Some t :: _ => t_kind t <> KOperator /\ t_text t <> s_ ";"
    | [] => False
    end.

  (** [f] parses operand [x] from tokens [xs]. *)
  Definition parses_operand (f : nat) (xs : list token) (x : tr) : Prop :=
    forall f' rest, (f <= f')%nat -> parse_operand f' (map Some xs ++ rest) = POk x rest.

  (** Operands and operators of a spelling. *)
  Inductive spell_steps : list (oper * tr) -> list token -> Prop :=
  | ss_nil : spell_steps [] []
  | ss_cons : forall o x ot xs l ts, infix ot o -> leaf x -> spells x xs -> spell_steps l ts ->
      spell_steps ((o, x) :: l) (ot ++ xs ++ ts).

  Lemma spell_steps_app : forall a ta b tb, spell_steps a ta -> spell_steps b tb ->
    spell_steps (a ++ b) (ta ++ tb).
  Proof.
    intros a ta b tb H Hb. induction H; [exact Hb|]. simpl. rewrite <- !app_assoc.
    constructor; auto.
  Qed.

  Lemma split_spelling : forall t ts, spells t ts -> exists xs rs,
    ts = xs ++ rs /\ leaf (first_leaf t) /\ spells (first_leaf t) xs /\ spell_steps (steps t) rs.
  Proof.
    intros t ts H. induction H as [t A|e ts S IH|o l r tl ot tr Io Sl IHl Sr IHr].
    - exists [t], []. repeat split; constructor; auto.
    - eexists _, []. rewrite app_nil_r. repeat split; [|constructor]. constructor. exact S.
    - destruct IHl as (x1 & r1 & E1 & L1 & S1 & T1). destruct IHr as (x2 & r2 & E2 & L2 & S2 & T2).
      exists x1, (r1 ++ ot ++ x2 ++ r2). cbn [first_leaf steps].
      split; [rewrite E1, E2, <- !app_assoc; reflexivity|]. split; [exact L1|]. split; [exact S1|].
      apply spell_steps_app; [exact T1|]. constructor; auto.
  Qed.

  Lemma atom_text : forall t p, atom t -> In (s_ p) (map s_ [":"; ")"; "}"]%string) ->
    str_eqb (t_text t) (s_ p) = false.
  Proof.
    intros t p A I. unfold atom in A. apply not_true_is_false. intro E. apply str_eqb_eq in E.
    rewrite E in A. destruct (t_kind t); auto.
  Qed.

  Lemma head_not_colon : forall xs (x : tr), spells x xs -> leaf x -> forall rest,
    head_is (map Some xs ++ rest) ":" = false /\ map Some xs ++ rest <> [].
  Proof.
    intros xs x S L rest. destruct S as [t A|e ts S|o l r tl ot tr Io Sl Sr].
    - simpl. split; [|discriminate]. apply (atom_text t _ A). simpl. auto.
    - split; [reflexivity|discriminate].
    - destruct L.
  Qed.

  Lemma length_nonempty : forall (x : tr) xs, spells x xs -> (1 <= length xs)%nat.
  Proof.
    induction 1; simpl; rewrite ?app_length; simpl; lia.
  Qed.
  Lemma infix_length : forall ot o, infix ot o -> (1 <= length ot)%nat.
  Proof. destruct 1; simpl; lia. Qed.

  Lemma set_assign : forall o, op_set_assign o (o_prec assign_op) (o_assoc assign_op) = assigning o.
  Proof. reflexivity. Qed.

  (** The infix loop inserts the steps one by one. *)
  Lemma infix_loop : forall n,
    (forall x xs, leaf x -> grouped x -> spells x xs -> (length xs <= n)%nat ->
       parses_operand (10 * length xs + 1) xs x) ->
    forall l ts, spell_steps l ts -> (length ts <= n)%nat ->
    Forall (fun p => grouped (snd p)) l ->
    forall e f rest, shaped e -> stops rest -> (10 * length ts + 2 <= f)%nat ->
    parse_infix f (-1) e (map Some ts ++ rest) = POk (build e l) rest.
  Proof.
    intros n HO l ts S. induction S as [|o x ot xs l ts Io Lx Sx S IH]; intros Ln G e f rest Se St Lf.
    - destruct f; [simpl in Lf; lia|]. rewrite parse_infix_eq. simpl.
      destruct rest as [|[t|] rest]; [destruct St| |reflexivity].
      destruct St as [K _]. destruct (t_kind t); try reflexivity. destruct K; reflexivity.
    - inversion G as [|p l' Gx G' E1]; subst. cbn [snd] in Gx.
      rewrite !app_length in *.
      pose proof (length_nonempty _ _ Sx) as Lxs. pose proof (infix_length _ _ Io) as Lot.
      pose proof (infix_is _ _ Io) as Ho.
      assert (HB : forall (y : tr), (let '(spine, (aop, aargs)) := bubble o e in
                   rebuild spine (TApp aop (aargs ++ [] ++ [y]))) = insert o y e).
      { intro y. unfold bubble. apply bubble_insert; auto. }
      assert (NC : assoc_eqb (o_assoc o) AChain = false).
      { destruct (inf_assoc o Ho) as [A|A]; rewrite A; reflexivity. }
      destruct f as [|f]; [lia|].
      assert (CONT : forall spine aop aargs, bubble o e = (spine, (aop, aargs)) ->
        pbind (parse_operand f (map Some xs ++ map Some ts ++ rest)) (fun y ts4 =>
          parse_infix f (-1) (rebuild spine (TApp aop (aargs ++ [] ++ [y]))) ts4)
        = POk (build e ((o, x) :: l)) rest).
      { intros spine aop aargs EB.
        rewrite (HO x xs Lx Gx Sx) by lia. cbn [pbind].
        specialize (HB x). rewrite EB in HB. rewrite HB.
        rewrite IH; [reflexivity|lia|exact G'| |exact St|lia].
        apply insert_shaped; auto. eapply spells_shaped; eassumption. }
      rewrite !map_app, <- !app_assoc.
      destruct Io as [t o K H A|t c o K H C]; cbn [map app].
      + rewrite parse_infix_eq. rewrite K. unfold infix_op. rewrite H.
        destruct (head_not_colon xs x Sx Lx (map Some ts ++ rest)) as [HC HN].
        destruct (map Some xs ++ map Some ts ++ rest) as [|t1 ts1] eqn:EL; [destruct HN; reflexivity|].
        cbn [second_is]. rewrite HC. cbv zeta.
        assert (P : (o_prec o <? -1) = false) by (apply Z.ltb_ge; pose proof (inf_prec o Ho); lia).
        rewrite P, NC. destruct (bubble o e) as [spine [aop aargs]] eqn:EB.
        rewrite (inf_arity o Ho). change (2 =? 3)%nat with false. cbv iota. cbn [pbind].
        apply CONT. reflexivity.
      + rewrite parse_infix_eq. rewrite K. unfold infix_op. rewrite H.
        assert (HC : forall r, head_is (Some c :: r) ":" = true).
        { intro r. simpl. rewrite C. reflexivity. }
        cbn [second_is]. rewrite !HC. cbv zeta.
        assert (P : (o_prec assign_op <? -1) = false) by reflexivity.
        rewrite P. rewrite set_assign, NC.
        destruct (bubble (assigning o) e) as [spine [aop aargs]] eqn:EB.
        rewrite (inf_arity _ Ho). change (2 =? 3)%nat with false. cbv iota. cbn [pbind].
        apply CONT. reflexivity.
  Qed.

  Lemma grouped_leaf : forall t, shaped t -> grouped t -> grouped (first_leaf t).
  Proof.
    intros t S. induction S; intro G; auto. inversion G; subst. apply IHS1. assumption.
  Qed.
  Lemma grouped_steps : forall t, shaped t -> grouped t -> Forall (fun p => grouped (snd p)) (steps t).
  Proof.
    intros t S. induction S as [u|e S IH|o l r Ho Sl IHl Sr IHr]; intro G; try constructor.
    inversion G; subst. cbn [steps]. apply Forall_app. split; [auto|]. constructor; [|auto].
    apply grouped_leaf; auto.
  Qed.

  Lemma parse_grouped : forall n,
    (forall (t : tr) ts, grouped t -> spells t ts -> (length ts <= n)%nat ->
       forall f rest, stops rest -> (10 * length ts + 3 <= f)%nat ->
       parse_expr f (-1) (map Some ts ++ rest) = POk t rest)
    /\ (forall x xs, leaf x -> grouped x -> spells x xs -> (length xs <= n)%nat ->
       parses_operand (10 * length xs + 1) xs x).
  Proof.
    induction n as [|n (IHe & IHo)].
    - split; intros; match goal with H : spells _ _ |- _ => pose proof (length_nonempty _ _ H) end; lia.
    - assert (O : forall x xs, leaf x -> grouped x -> spells x xs -> (length xs <= S n)%nat ->
               parses_operand (10 * length xs + 1) xs x).
      { intros x xs L G S Ln f rest Lf. destruct S as [t A|e ts S|o l r tl ot tr Io Sl Sr]; [| |destruct L].
        - destruct f; [simpl in Lf; lia|]. rewrite parse_operand_eq. simpl. unfold atom in A.
          destruct (t_kind t); try reflexivity; destruct A.
        - inversion G; subst. simpl in Lf, Ln. rewrite app_length in Lf, Ln. simpl in Lf, Ln.
          destruct f as [|f]; [lia|]. rewrite parse_operand_eq. cbn [map app].
          change (t_kind (Tok KSymbol (s_ "("))) with KSymbol. cbv iota.
          change (t_text (Tok KSymbol (s_ "("))) with (s_ "("). 
          change (str_eqb (s_ "(") (s_ "(")) with true. cbv iota.
          rewrite map_app, <- app_assoc. cbn [map app].
          destruct f as [|f]; [lia|]. rewrite parse_until_eq.
          pose proof (length_nonempty _ _ S) as Ls.
          assert (HH : head_is (map Some ts ++ Some (Tok KSymbol (s_ ")")) :: rest) ")" = false
                       /\ exists t0 ts0, ts = t0 :: ts0).
          { clear -S. induction S as [t A|e ts S IH|o l r tl ot tr Io Sl IHl Sr IHr].
            - simpl. split; [|eauto]. apply (atom_text t _ A). simpl. auto.
            - split; [reflexivity|eauto].
            - destruct IHl as (H1 & t0 & ts0 & ->). simpl. split; [exact H1|eauto]. }
          destruct HH as (HH & t0 & ts0 & Ets). 
          rewrite HH. rewrite Ets at 1. cbn [map app].
          rewrite (IHe e ts); [|assumption|exact S|lia|simpl; split; discriminate|lia].
          cbn [pbind]. destruct f as [|f]; [lia|]. rewrite parse_until_eq.
          change (head_is (Some (Tok KSymbol (s_ ")")) :: rest) ")") with true. cbv iota. cbn [pbind].
          reflexivity. }
      split; [|exact O].
      intros t ts G S Ln f rest St Lf.
      destruct f as [|f]; [lia|]. rewrite parse_expr_eq.
      destruct (split_spelling t ts S) as (xs & rs & E & L1 & S1 & T1). subst ts.
      rewrite app_length in *. rewrite map_app, <- app_assoc.
      pose proof (spells_shaped _ _ S) as Sh.
      pose proof (length_nonempty _ _ S1) as Lx.
      rewrite (O (first_leaf t) xs L1 (grouped_leaf t Sh G) S1) by lia. cbn [pbind].
      rewrite (infix_loop n IHo (steps t) rs T1); auto;
        [|lia|apply grouped_steps; auto|eapply spells_shaped; eassumption|lia].
      cbn [pbind]. rewrite build_steps by auto.
      destruct rest as [|[t0|] rest]; [destruct St| |reflexivity].
      destruct St as [_ K]. cbn [head_is].
      destruct (str_eqb (t_text t0) (s_ ";")) eqn:E2; [|rewrite andb_false_r; reflexivity].
      apply str_eqb_eq in E2. destruct K. exact E2.
  Qed.

  Lemma spells_head : forall (t : tr) ts, spells t ts -> exists t0 ts0, ts = t0 :: ts0 /\
    str_eqb (t_text t0) (s_ "}") = false /\ t_kind t0 <> KCommand.
  Proof.
    induction 1 as [t A|e ts S IH|o l r tl ot tr Io Sl IHl Sr IHr].
    - exists t, []. split; [reflexivity|]. split; [apply (atom_text t _ A); simpl; auto|].
      unfold atom in A. destruct (t_kind t); try discriminate. destruct A.
    - eexists _, _. split; [reflexivity|]. split; [reflexivity|discriminate].
    - destruct IHl as (t0 & ts0 & -> & H). eexists _, _. split; [reflexivity|exact H].
  Qed.

  Lemma parse_program_grouped : forall (t : tr) ts, spells t ts -> grouped t ->
    parse_program (program ts) = POk [t] [None].
  Proof.
    intros t ts S G. unfold parse_program, parse_fuel, program. rewrite app_length, map_length.
    change (length [None]) with 1%nat.
    destruct (spells_head t ts S) as (t0 & ts0 & E & B & K).
    replace (10 * (length ts + 1) + 10)%nat with (Datatypes.S (Datatypes.S (10 * length ts + 18)))%nat by lia.
    assert (X : parse_expr (10 * length ts + 18) (-1) (map Some ts ++ [None]) = POk t [None]).
    { apply (proj1 (parse_grouped (length ts))); auto; [exact I|lia]. }
    generalize dependent (10 * length ts + 18)%nat. intros f X. rewrite E in *. cbn [map app] in *.
    rewrite parse_eq. rewrite B. rewrite parse_statement_eq. cbv zeta. rewrite X. cbn [pbind head_is].
    destruct (t_kind t0); try (destruct K; reflexivity); reflexivity.
  Qed.
  
  Lemma grouped_exists : forall ts, expression ts -> exists t : tr, spells t ts /\ grouped t.
  Proof.
    assert (X : forall n ts, (length ts <= n)%nat ->
      (expression ts -> exists t : tr, spells t ts /\ grouped t) /\
      (operand ts -> exists t : tr, spells t ts /\ grouped t /\ leaf t)).
    { induction n as [|n IH]; intros ts L.
      - assert (Y : (forall ts, expression ts -> (1 <= length ts)%nat)).
        { clear. fix F 2. intros ts [ts' O|ts' ot o xs E I O].
          - destruct O; simpl; lia.
          - specialize (F _ E). rewrite app_length. lia. }
        split; intro E; [specialize (Y ts E); lia|]. destruct E; simpl in L; lia.
      - assert (O : forall ts, (length ts <= S n)%nat -> operand ts ->
                   exists t : tr, spells t ts /\ grouped t /\ leaf t).
        { clear ts L. intros ts L Op. destruct Op as [t A|us E].
          - exists (TTok t). repeat split; constructor; auto.
          - simpl in L. rewrite app_length in L. simpl in L.
            destruct (proj1 (IH us ltac:(lia)) E) as (t & St & Gt).
            exists (TApp op_paren [t]). repeat split; constructor; auto. }
        split; [|apply O, L]. intro E. revert L.
        induction E as [us Ou|us ot o xs E IHE I Ox]; intro L.
        + destruct (O us L Ou) as (t & St & Gt & _). eauto.
        + rewrite !app_length in L. destruct (IHE ltac:(lia)) as (t & St & Gt).
          destruct (O xs ltac:(lia) Ox) as (x & Sx & Gx & Lx).
          exists (insert o x t). split; [apply insert_spells; auto|].
          apply insert_grouped; auto; [eapply infix_is|eapply spells_shaped]; eassumption. }
    intros ts E. apply (proj1 (X (length ts) ts (le_n _))), E.
  Qed.

  Lemma parse_precedence : forall ts, expression ts ->
    exists t : tr, parse_program (program ts) = POk [t] [None] /\ spells t ts /\ grouped t
      /\ forall t' : tr, spells t' ts -> grouped t' -> t' = t.
  Proof.
    intros ts E. destruct (grouped_exists ts E) as (t & S & G). exists t.
    pose proof (parse_program_grouped t ts S G) as P. repeat split; auto.
    intros t' S' G'. pose proof (parse_program_grouped t' ts S' G') as P'. congruence.
  Qed.
End Prec.
