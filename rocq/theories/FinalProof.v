(** * A bad-syntax error does not depend on what follows *)

From Coq Require Import String List NArith ZArith Bool Arith Lia.
From Verif Require Import PyStr StrFacts Tokens OpFun OpTable Parse ParseEq SpecSyntax PrecProof.
Import ListNotations.
Local Open Scope Z_scope.

Section Final.
  Context {V : Type}.
  Local Notation tr := (tree V).

  (** The continuation that replaces the end of the program. *)
  Context (x : toklist).

  (** A remainder from which no run can fail with bad syntax: the end of the
      program or, inside an operand, an operator just before it. *)
  Definition doomed (p : bool) (rest : toklist) : Prop :=
    rest = [None] \/
    p = true /\ exists t op, rest = [Some t; None] /\ t_kind t = KOperator /\ infix_op t = Some op.

  Definition dead {A} (p : bool) (r : pres A) : Prop :=
    match r with
    | PErr BadSyntax => False
    | PErr _ => True
    | POk _ rest => doomed p rest
    end.

  Definition sim {A} (p : bool) (r1 r2 : pres A) : Prop :=
    match r1 with
    | PErr BadSyntax => r2 = PErr BadSyntax
    | PErr _ => True
    | POk a rest1 =>
      (exists l, rest1 = map Some l ++ [None] /\ r2 = POk a (map Some l ++ x)) \/ doomed p rest1
    end.

  Lemma doomed_weak : forall p rest, doomed false rest -> doomed p rest.
  Proof. intros p rest [H|[H _]]; [left; exact H|discriminate]. Qed.
  Lemma doomed_true : forall p rest, doomed p rest -> doomed true rest.
  Proof. intros p rest [H|[_ H]]; [left; exact H|right; auto]. Qed.

  Lemma dead_weak : forall A p (r : pres A), dead false r -> dead p r.
  Proof. intros A p [a rest|[| | | |]] H; simpl in *; auto using doomed_weak. Qed.

  Lemma dead_bind : forall A B p q (r : pres A) (f : A -> toklist -> pres B),
    dead p r -> (forall a rest, doomed p rest -> dead q (f a rest)) -> dead q (pbind r f).
  Proof. intros A B p q [a rest|e] f H K; simpl in *; auto. Qed.

  Lemma sim_dead : forall A p (r1 r2 : pres A), dead p r1 -> sim p r1 r2.
  Proof. intros A p [a rest|[| | | |]] r2 H; simpl in *; auto; destruct H. Qed.

  Lemma sim_bind : forall A B p q (r1 r2 : pres A) (f g : A -> toklist -> pres B),
    sim p r1 r2 ->
    (forall a l, sim q (f a (map Some l ++ [None])) (g a (map Some l ++ x))) ->
    (forall a rest, doomed p rest -> dead q (f a rest)) ->
    sim q (pbind r1 f) (pbind r2 g).
  Proof.
    intros A B p q [a rest|[| | | |]] r2 f g H K D; simpl in *; auto.
    - destruct H as [(l & -> & ->)|H]; [apply K|]. apply sim_dead, D, H.
    - subst. reflexivity.
  Qed.

  Lemma sim_ok : forall A p (a : A) l, sim p (POk a (map Some l ++ [None])) (POk a (map Some l ++ x)).
  Proof. intros. left. exists l. auto. Qed.

  (** ** Runs on the bare end marker *)

  Lemma names_none : forall f, dead false (@parse_name_list V f [None]) /\ dead false (@parse_names V f [None]).
  Proof.
    induction f as [|f (IH1 & IH2)]; [split; exact I|]. split; [exact I|]. simpl.
    apply dead_bind with (p := false); [exact IH1|]. intros a rest D.
    destruct D as [->|[D _]]; [|discriminate]. apply dead_bind with (p := false); [exact IH2|].
    intros b rest D. exact D.
  Qed.

  Lemma operand_none : forall f p, dead p (@parse_operand V f [None]).
  Proof. destruct f; intros; [exact I|rewrite parse_operand_eq; exact I]. Qed.
  Lemma infix_none : forall f p m e, dead p (@parse_infix V f m e [None]).
  Proof. destruct f; intros; [exact I|rewrite parse_infix_eq; left; reflexivity]. Qed.
  Lemma operand_none' : forall f, exists e, @parse_operand V f [None] = PErr e /\ e <> BadSyntax.
  Proof. destruct f; [eexists|eexists; rewrite parse_operand_eq]; split; try reflexivity; discriminate. Qed.
  Lemma expr_none' : forall f m, exists e, @parse_expr V f m [None] = PErr e /\ e <> BadSyntax.
  Proof.
    destruct f; intros; [eexists; split; [reflexivity|discriminate]|]. rewrite parse_expr_eq.
    destruct (operand_none' f) as (e & -> & H). exists e. auto.
  Qed.
  Lemma expr_none : forall f p m, dead p (@parse_expr V f m [None]).
  Proof. intros. destruct (expr_none' f m) as (e & -> & H). destruct e; simpl; auto. Qed.
  Lemma statement_none : forall f p, dead p (@parse_statement V f [None]).
  Proof. destruct f; intros; [exact I|rewrite parse_statement_eq; exact I]. Qed.
  Lemma block_none : forall f p, dead p (@parse_block V f [None]).
  Proof.
    destruct f; intros; [exact I|rewrite parse_block_eq]. simpl.
    apply dead_bind with (p := false); [apply statement_none|]. intros a rest D. apply doomed_weak, D.
  Qed.
  Lemma parse_none : forall f p, dead p (@parse V f [None]).
  Proof. destruct f; intros; [exact I|rewrite parse_eq; left; reflexivity]. Qed.
  Lemma until_none : forall f p c, dead p (@parse_until V f c [None]).
  Proof. destruct f; intros; [exact I|rewrite parse_until_eq; exact I]. Qed.

  Lemma args_none : forall f l, dead false (@parse_args V f l [None]).
  Proof.
    induction f; intros; [exact I|]. rewrite parse_args_eq. destruct l as [|a l]; [left; reflexivity|].
    cbv zeta. apply dead_bind with (p := false).
    - destruct a; first [apply expr_none|apply names_none|left; reflexivity
                        |apply dead_bind with (p := false); [apply block_none|auto]].
    - intros y rest [->|[D _]]; [|discriminate]. apply dead_bind with (p := false); [apply IHf|auto].
  Qed.

  Lemma infix_prec : forall t op, infix_op t = Some op -> 0 <= o_prec op.
  Proof.
    intros t op H. unfold infix_op in H.
    destruct (op_by_arity 2 (t_text t)) eqn:E.
    - inversion H; subst. apply in_table in E. apply table_facts, E.
    - apply in_table in H. apply table_facts, H.
  Qed.

  (** ** An operator just before the end marker *)
  Lemma infix_last : forall f m e t op, t_kind t = KOperator -> infix_op t = Some op ->
    dead (negb (m =? -1)) (@parse_infix V f m e [Some t; None]).
  Proof.
    intros f m e t op K O. destruct f; [exact I|]. rewrite parse_infix_eq. rewrite K, O.
    change (second_is [Some t; None] ":") with false. change (head_is [@None token] ":") with false. cbv zeta.
    destruct (o_prec op <? m) eqn:L.
    - right. split; [|eauto 6]. apply Z.ltb_lt in L. pose proof (infix_prec t op O).
      apply negb_true_iff, Z.eqb_neq. lia.
    - destruct (bubble _ e) as [spine [aop aargs]].
      destruct (assoc_eqb (o_assoc op) AChain).
      + cbn [pbind]. destruct (operand_none' f) as (e' & -> & H). destruct e'; simpl; auto.
      + destruct (o_arity op =? 3)%nat.
        * destruct (expr_none' f (-1)) as (e' & -> & H). destruct e'; simpl; auto.
        * cbn [pbind]. destruct (operand_none' f) as (e' & -> & H). destruct e'; simpl; auto.
  Qed.

  Lemma infix_doomed : forall f m e rest, doomed true rest ->
    dead (negb (m =? -1)) (@parse_infix V f m e rest).
  Proof.
    intros f m e rest [->|(_ & t & op & -> & K & O)]; [apply infix_none|]. eapply infix_last; eassumption.
  Qed.

  Lemma op_text_semi : forall t op, infix_op t = Some op -> str_eqb (t_text t) (s_ ";") = false.
  Proof.
    intros t op H. apply not_true_is_false. intro E. apply str_eqb_eq in E. unfold infix_op in H.
    rewrite E in H. vm_compute in H. discriminate.
  Qed.

  Lemma after_infix : forall m (e : tr) rest, doomed (negb (m =? -1)) rest ->
    dead (negb (m =? -1))
      match rest with
      | [] => PErr PIndexError
      | _ :: ts3 => if (m =? -1)%Z && head_is rest ";" then POk e ts3 else POk e rest
      end.
  Proof.
    intros m e rest [->|(P & t & op & -> & K & O)].
    - simpl. rewrite andb_false_r. left. reflexivity.
    - simpl. rewrite (op_text_semi _ _ O), andb_false_r. right. eauto 8.
  Qed.

  (** ** Runs that, when they succeed, leave the same remainder *)
  Definition strict {A} (r1 r2 : pres A) : Prop :=
    match r1 with
    | PErr BadSyntax => r2 = PErr BadSyntax
    | PErr _ => True
    | POk a rest1 => exists l, rest1 = map Some l ++ [None] /\ r2 = POk a (map Some l ++ x)
    end.
  Definition fails {A} (r : pres A) : Prop := exists e, r = PErr e /\ e <> BadSyntax.

  Lemma fails_strict : forall A (r1 r2 : pres A), fails r1 -> strict r1 r2.
  Proof. intros A r1 r2 (e & -> & H). destruct e; simpl; auto. destruct H; reflexivity. Qed.
  Lemma strict_bind : forall A B p (r1 r2 : pres A) (f g : A -> toklist -> pres B),
    sim p r1 r2 ->
    (forall a l, strict (f a (map Some l ++ [None])) (g a (map Some l ++ x))) ->
    (forall a rest, doomed p rest -> fails (f a rest)) ->
    strict (pbind r1 f) (pbind r2 g).
  Proof.
    intros A B p [a rest|[| | | |]] r2 f g H K D; simpl in *; auto.
    - destruct H as [(l & -> & ->)|H]; [apply K|]. apply fails_strict, D, H.
    - subst. reflexivity.
  Qed.
  Lemma bind_strict : forall A B q (r1 r2 : pres A) (f g : A -> toklist -> pres B),
    strict r1 r2 ->
    (forall a l, sim q (f a (map Some l ++ [None])) (g a (map Some l ++ x))) ->
    sim q (pbind r1 f) (pbind r2 g).
  Proof.
    intros A B q [a rest|[| | | |]] r2 f g H K; simpl in *; auto.
    - destruct H as (l & -> & ->). apply K.
    - subst. reflexivity.
  Qed.
  Lemma strict_strict : forall A B (r1 r2 : pres A) (f g : A -> toklist -> pres B),
    strict r1 r2 ->
    (forall a l, strict (f a (map Some l ++ [None])) (g a (map Some l ++ x))) ->
    strict (pbind r1 f) (pbind r2 g).
  Proof.
    intros A B [a rest|[| | | |]] r2 f g H K; simpl in *; auto.
    - destruct H as (l & -> & ->). apply K.
    - subst. reflexivity.
  Qed.
  Lemma strict_ok : forall A (a : A) l, strict (POk a (map Some l ++ [None])) (POk a (map Some l ++ x)).
  Proof. intros. exists l. auto. Qed.
  Lemma fails_bind : forall A B (r : pres A) (f : A -> toklist -> pres B), fails r -> fails (pbind r f).
  Proof. intros A B r f (e & -> & H). exists e. auto. Qed.

  Lemma names_fail : forall f, fails (@parse_name_list V f [None]) /\ fails (@parse_names V f [None]).
  Proof.
    induction f as [|f (IH1 & IH2)].
    - split; eexists; (split; [reflexivity|discriminate]).
    - split; [eexists; (split; [reflexivity|discriminate])|]. simpl. apply fails_bind, IH1.
  Qed.
  Lemma until_fail : forall f c, fails (@parse_until V f c [None]).
  Proof. destruct f; intros; [|rewrite parse_until_eq]; eexists; (split; [reflexivity|discriminate]). Qed.

  (** ** The simulation *)

  (** The optional [;] after a statement, an expression or a loop variable. *)
  Definition semi (T : tr) (ts : toklist) : pres tr :=
    match ts with
    | [] => PErr PIndexError
    | _ :: ts' => if head_is ts ";" then POk T ts' else POk T ts
    end.
  Lemma semi_sim : forall T l, sim false (semi T (map Some l ++ [None])) (semi T (map Some l ++ x)).
  Proof.
    intros T [|t0 l0]; [right; left; reflexivity|]. unfold semi. cbn [map app head_is].
    destruct (str_eqb _ _); [apply sim_ok|]. apply (sim_ok _ _ _ (t0 :: l0)).
  Qed.

  Lemma names_sim : forall f f' l, (f <= f')%nat ->
    sim false (@parse_name_list V f (map Some l ++ [None])) (parse_name_list f' (map Some l ++ x))
    /\ strict (@parse_names V f (map Some l ++ [None])) (parse_names f' (map Some l ++ x)).
  Proof.
    induction f as [|f IH]; intros f' l L; [split; exact I|].
    destruct f' as [|f']; [lia|]. assert (L' : (f <= f')%nat) by lia.
    destruct l as [|t l].
    { split; [apply sim_dead, names_none|apply fails_strict, names_fail]. }
    cbn [map app]. split; cbn [parse_name_list parse_names].
    - change (sim false
        match t_kind t with
        | KName => semi (TTok t) (map Some l ++ [None])
        | _ => if str_eqb (t_text t) (s_ "[")
               then pbind (parse_names f (map Some l ++ [None])) (fun names ts2 =>
                    match names with [] => PErr BadSyntax | _ => semi (TApp op_enlist names) ts2 end)
               else PErr BadSyntax
        end
        match t_kind t with
        | KName => semi (TTok t) (map Some l ++ x)
        | _ => if str_eqb (t_text t) (s_ "[")
               then pbind (parse_names f' (map Some l ++ x)) (fun names ts2 =>
                    match names with [] => PErr BadSyntax | _ => semi (TApp op_enlist names) ts2 end)
               else PErr BadSyntax
        end).
      destruct (t_kind t); try apply semi_sim; destruct (str_eqb _ _);
        try reflexivity; (apply bind_strict; [apply IH, L'|]; intros [|n ns] l0; [reflexivity|apply semi_sim]).
    - change (head_is (Some t :: map Some l ++ [None]) "]") with (str_eqb (t_text t) (s_ "]")).
      change (head_is (Some t :: map Some l ++ x) "]") with (str_eqb (t_text t) (s_ "]")).
      destruct (str_eqb _ _); [apply strict_ok|].
      apply strict_bind with (p := false).
      + apply (IH f' (t :: l)), L'.
      + intros a l0. apply strict_strict; [apply IH, L'|intros; apply strict_ok].
      + intros a rest [->|[D _]]; [|discriminate]. apply fails_bind, names_fail.
  Qed.

  Definition open_ (m : Z) : bool := negb (m =? -1).

  Lemma sim_true : forall A p (r1 r2 : pres A), sim p r1 r2 -> sim true r1 r2.
  Proof.
    intros A p [a rest|[| | | |]] r2 H; simpl in *; auto.
    destruct H as [H|H]; [left; exact H|right; eapply doomed_true; exact H].
  Qed.

  Lemma parse_sim : forall f f', (f <= f')%nat -> forall l,
    sim false (@parse V f (map Some l ++ [None])) (parse f' (map Some l ++ x))
    /\ sim false (@parse_statement V f (map Some l ++ [None])) (parse_statement f' (map Some l ++ x))
    /\ (forall a, sim false (@parse_args V f a (map Some l ++ [None])) (parse_args f' a (map Some l ++ x)))
    /\ sim false (@parse_block V f (map Some l ++ [None])) (parse_block f' (map Some l ++ x))
    /\ (forall m, sim (open_ m) (@parse_expr V f m (map Some l ++ [None])) (parse_expr f' m (map Some l ++ x)))
    /\ (forall m e, sim (open_ m) (@parse_infix V f m e (map Some l ++ [None])) (parse_infix f' m e (map Some l ++ x)))
    /\ sim true (@parse_operand V f (map Some l ++ [None])) (parse_operand f' (map Some l ++ x))
    /\ (forall c, strict (@parse_until V f c (map Some l ++ [None])) (parse_until f' c (map Some l ++ x))).
  Proof.
    induction f as [|f IH]; intros f' L l.
    { repeat (split; [intros; exact I|]). intros; exact I. }
    destruct f' as [|f']; [lia|]. assert (L' : (f <= f')%nat) by lia. specialize (IH f' L').
    assert (NO : forall rest p, doomed p rest -> p = false -> rest = [None]).
    { intros rest p [E|[E _]] F; [exact E|congruence]. }
    destruct l as [|t l].
    { cbn [map app]. split; [apply sim_dead, parse_none|].
      split; [apply sim_dead, statement_none|].
      split; [intro; apply sim_dead, args_none|].
      split; [apply sim_dead, block_none|].
      split; [intro; apply sim_dead, expr_none|].
      split; [intros; apply sim_dead, infix_none|].
      split; [apply sim_dead, operand_none|].
      intro; apply fails_strict, until_fail. }
    pose proof (IH l) as IHl. destruct IHl as (P1 & P2 & P3 & P4 & P5 & P6 & P7 & P8).
    pose proof (IH (t :: l)) as IHt. cbn [map app] in IHt. destruct IHt as (Q1 & Q2 & Q3 & Q4 & Q5 & Q6 & Q7 & Q8).
    cbn [map app].
    assert (HD : forall (s : string) r, head_is (Some t :: r) s = str_eqb (t_text t) (s_ s)) by reflexivity.
    split; [|split; [|split; [|split; [|split; [|split; [|split]]]]]].
    - (* parse *)
      rewrite !parse_eq. destruct (str_eqb _ _); [apply (sim_ok _ _ _ (t :: l))|].
      apply sim_bind with (p := false); [exact Q2| |].
      + intros a l0. apply sim_bind with (p := false); [apply IH|intros; apply sim_ok|auto].
      + intros a rest D. rewrite (NO _ _ D eq_refl).
        apply dead_bind with (p := false); [apply parse_none|auto].
    - (* statement *)
      rewrite !parse_statement_eq. cbv zeta.
      assert (E : sim false (pbind (parse_expr f (-1) (Some t :: map Some l ++ [None])) semi)
                            (pbind (parse_expr f' (-1) (Some t :: map Some l ++ x)) semi)).
      { apply sim_bind with (p := false); [apply (Q5 (-1))|intros; apply semi_sim|].
        intros a rest D. rewrite (NO _ _ D eq_refl). left. reflexivity. }
      destruct (t_kind t); try exact E.
      destruct (command_of (t_text t)) as [c|]; [|exact I].
      apply sim_bind with (p := false); [apply P3| |].
      + intros a l0. apply (semi_sim (TCmd c a)).
      + intros a rest D. rewrite (NO _ _ D eq_refl). left. reflexivity.
    - (* args *)
      intros [|a al]; rewrite !parse_args_eq; [apply (sim_ok _ _ _ (t :: l))|]. cbv zeta.
      apply sim_bind with (p := false).
      + rewrite !HD. destruct a.
        all: try (apply names_sim with (l := t :: l); exact L').
        all: try exact (Q5 (-1)).
        * apply sim_bind with (p := false); [exact Q4|intros; apply sim_ok|auto].
        * destruct (str_eqb _ _); [|apply (sim_ok _ _ _ (t :: l))].
          apply sim_bind with (p := false); [exact P4|intros; apply sim_ok|auto].
      + intros y l0. apply sim_bind with (p := false); [apply IH|intros; apply sim_ok|auto].
      + intros y rest D. rewrite (NO _ _ D eq_refl).
        apply dead_bind with (p := false); [apply args_none|auto].
    - (* block *)
      rewrite !parse_block_eq, !HD. destruct (str_eqb _ _).
      + apply sim_bind with (p := false); [exact P1| |].
        * intros a [|t0 l0]; [exact I|]. cbn [map app head_is]. destruct (str_eqb _ _); [apply sim_ok|reflexivity].
        * intros a rest D. rewrite (NO _ _ D eq_refl). exact I.
      + apply sim_bind with (p := false); [exact Q2|intros; apply sim_ok|auto].
    - (* expr *)
      intro m. rewrite !parse_expr_eq. apply sim_bind with (p := true); [exact Q7| |].
      + intros e l0. apply sim_bind with (p := open_ m); [apply IH| |].
        * intros e' [|t0 l1].
          -- cbn [map app head_is]. rewrite andb_false_r. right. left. reflexivity.
          -- cbn [map app head_is]. destruct (_ && _); [apply sim_ok|apply (sim_ok _ _ _ (t0 :: l1))].
        * intros e' rest D. apply after_infix, D.
      + intros e rest D. apply dead_bind with (p := open_ m); [apply infix_doomed, D|].
        intros e' rest' D'. apply after_infix, D'.
    - (* infix *)
      intros m e. destruct l as [|t1 l1].
      { destruct (t_kind t) eqn:K; try (rewrite !parse_infix_eq, K; apply (sim_ok _ _ _ [t])).
        destruct (infix_op t) as [op|] eqn:O.
        - apply sim_dead. apply (infix_last (S f) m e t op K O).
        - rewrite !parse_infix_eq, K, O. apply (sim_ok _ _ _ [t]). }
      cbn [map app]. rewrite !parse_infix_eq.
      destruct (t_kind t); try apply (sim_ok _ _ _ (t :: t1 :: l1)).
      destruct (infix_op t) as [op|]; [|apply (sim_ok _ _ _ (t :: t1 :: l1))].
      assert (H2 : forall (s : string) r, second_is (Some t :: Some t1 :: r) s = str_eqb (t_text t1) (s_ s)) by reflexivity.
      assert (H1 : forall (s : string) r, head_is (Some t1 :: r) s = str_eqb (t_text t1) (s_ s)) by reflexivity.
      rewrite !H2, !H1. cbv zeta.
      destruct (_ <? m); [apply (sim_ok _ _ _ (t :: t1 :: l1))|].
      assert (CONT : forall op' l2, sim (open_ m)
        (let '(spine, (aop, aargs)) := bubble (if assoc_eqb (o_assoc op') AChain then op_chain else op') e in
         pbind (if assoc_eqb (o_assoc op') AChain then POk [TOpr op'] (map Some l2 ++ [None])
                else if (o_arity op' =? 3)%nat then
                  pbind (parse_expr f (-1) (map Some l2 ++ [None])) (fun m0 ts3 => POk [m0] ts3)
                else POk [] (map Some l2 ++ [None])) (fun mid ts3 =>
         pbind (parse_operand f ts3) (fun y ts4 =>
           parse_infix f m (rebuild spine (TApp aop (aargs ++ mid ++ [y]))) ts4)))
        (let '(spine, (aop, aargs)) := bubble (if assoc_eqb (o_assoc op') AChain then op_chain else op') e in
         pbind (if assoc_eqb (o_assoc op') AChain then POk [TOpr op'] (map Some l2 ++ x)
                else if (o_arity op' =? 3)%nat then
                  pbind (parse_expr f' (-1) (map Some l2 ++ x)) (fun m0 ts3 => POk [m0] ts3)
                else POk [] (map Some l2 ++ x)) (fun mid ts3 =>
         pbind (parse_operand f' ts3) (fun y ts4 =>
           parse_infix f' m (rebuild spine (TApp aop (aargs ++ mid ++ [y]))) ts4)))).
      { intros op' l2. destruct (bubble _ e) as [spine [aop aargs]].
        apply sim_bind with (p := false).
        - destruct (assoc_eqb _ _); [apply sim_ok|]. destruct (_ =? 3)%nat; [|apply sim_ok].
          apply sim_bind with (p := false); [apply (IH l2)|intros; apply sim_ok|auto].
        - intros mid l3. apply sim_bind with (p := true); [apply IH|intros y l4; apply IH|].
          intros y rest D. apply infix_doomed, D.
        - intros mid rest D. rewrite (NO _ _ D eq_refl).
          apply dead_bind with (p := true); [apply operand_none|]. intros y rest' D'. apply infix_doomed, D'. }
      destruct (str_eqb (t_text t1) (s_ ":")); [apply CONT|apply (CONT op (t1 :: l1))].
    - (* operand *)
      rewrite !parse_operand_eq.
      assert (U : forall op l2, @sim tr true
          match map Some l2 ++ [None] with
          | [] => PErr PIndexError
          | _ :: ts2' =>
            let '(op, ts3) := if head_is (map Some l2 ++ [None]) "*"
                              then (op_set_map op, ts2') else (op, map Some l2 ++ [None]) in
            match ts3 with
            | [] => PErr PIndexError
            | _ :: ts3' =>
              let '(op, ts4) :=
                if head_is ts3 ":"
                then (op_set_assign op (o_prec assign_op) (o_assoc op), ts3')
                else (op, ts3) in
              pbind (parse_expr f (o_prec op + 1) ts4) (fun x ts5 => POk (TApp op [x]) ts5)
            end
          end
          match map Some l2 ++ x with
          | [] => PErr PIndexError
          | _ :: ts2' =>
            let '(op, ts3) := if head_is (map Some l2 ++ x) "*"
                              then (op_set_map op, ts2') else (op, map Some l2 ++ x) in
            match ts3 with
            | [] => PErr PIndexError
            | _ :: ts3' =>
              let '(op, ts4) :=
                if head_is ts3 ":"
                then (op_set_assign op (o_prec assign_op) (o_assoc op), ts3')
                else (op, ts3) in
              pbind (parse_expr f' (o_prec op + 1) ts4) (fun x ts5 => POk (TApp op [x]) ts5)
            end
          end).
      { assert (U3 : forall op l4, @sim tr true
              (pbind (parse_expr f (o_prec op + 1) (map Some l4 ++ [None])) (fun x ts5 => POk (TApp op [x]) ts5))
              (pbind (parse_expr f' (o_prec op + 1) (map Some l4 ++ x)) (fun x ts5 => POk (TApp op [x]) ts5))).
        { intros op l4. apply sim_bind with (p := open_ (o_prec op + 1)); [apply IH|intros; apply sim_ok|].
          intros a rest D. eapply doomed_true. exact D. }
        assert (FE : forall op r, @sim tr true
              (pbind (parse_expr f (o_prec op + 1) [None]) (fun x ts5 => POk (TApp op [x]) ts5)) r).
        { intros op r. destruct (expr_none' f (o_prec op + 1)) as (e' & -> & H). destruct e'; simpl; auto.
          destruct H; reflexivity. }
        assert (U2 : forall op l3, @sim tr true
            match map Some l3 ++ [None] with
            | [] => PErr PIndexError
            | _ :: ts3' =>
              let '(op, ts4) :=
                if head_is (map Some l3 ++ [None]) ":"
                then (op_set_assign op (o_prec assign_op) (o_assoc op), ts3')
                else (op, map Some l3 ++ [None]) in
              pbind (parse_expr f (o_prec op + 1) ts4) (fun x ts5 => POk (TApp op [x]) ts5)
            end
            match map Some l3 ++ x with
            | [] => PErr PIndexError
            | _ :: ts3' =>
              let '(op, ts4) :=
                if head_is (map Some l3 ++ x) ":"
                then (op_set_assign op (o_prec assign_op) (o_assoc op), ts3')
                else (op, map Some l3 ++ x) in
              pbind (parse_expr f' (o_prec op + 1) ts4) (fun x ts5 => POk (TApp op [x]) ts5)
            end).
        { intros op [|t3 l3]; [apply FE|]. cbn [map app head_is].
          destruct (str_eqb _ _); [apply U3|apply (U3 op (t3 :: l3))]. }
        intros op [|t2 l2]; [apply FE|]. cbn [map app head_is].
        destruct (str_eqb _ _); [apply U2|apply (U2 op (t2 :: l2))]. }
      assert (M : @sim tr true
        (if str_eqb (t_text t) (s_ "(") then
            pbind (parse_until f ")" (map Some l ++ [None])) (fun es ts2 =>
            match es with
            | [] => POk (TTok (Tok KNil (s_ "()"))) ts2
            | [e] => POk (TApp op_paren [e]) ts2
            | _ => POk (TApp op_send es) ts2
            end)
          else if str_eqb (t_text t) (s_ "[") then
            pbind (parse_until f "]" (map Some l ++ [None])) (fun es ts2 =>
            POk (TApp op_enlist es) ts2)
          else if str_eqb (t_text t) (s_ "{") then
            pbind (parse_block f (Some t :: map Some l ++ [None])) (fun b ts2 =>
            POk (TApp op_block [TBlk b]) ts2)
          else @PErr tr PFuel)
        (if str_eqb (t_text t) (s_ "(") then
            pbind (parse_until f' ")" (map Some l ++ x)) (fun es ts2 =>
            match es with
            | [] => POk (TTok (Tok KNil (s_ "()"))) ts2
            | [e] => POk (TApp op_paren [e]) ts2
            | _ => POk (TApp op_send es) ts2
            end)
          else if str_eqb (t_text t) (s_ "[") then
            pbind (parse_until f' "]" (map Some l ++ x)) (fun es ts2 =>
            POk (TApp op_enlist es) ts2)
          else if str_eqb (t_text t) (s_ "{") then
            pbind (parse_block f' (Some t :: map Some l ++ x)) (fun b ts2 =>
            POk (TApp op_block [TBlk b]) ts2)
          else @PErr tr PFuel)).
      { destruct (str_eqb _ _).
        { apply bind_strict; [apply P8|]. intros [|e1 [|e2 es]] l0; apply sim_ok. }
        destruct (str_eqb _ _).
        { apply bind_strict; [apply P8|]. intros es l0; apply sim_ok. }
        destruct (str_eqb _ _); [|exact I].
        apply sim_bind with (p := false); [exact Q4|intros; apply sim_ok|].
        intros a rest D. apply doomed_weak, D. }
      destruct (t_kind t); try apply sim_ok;
      (destruct (str_eqb (t_text t) (s_ "(")); [exact M|];
       destruct (str_eqb (t_text t) (s_ "[")); [exact M|];
       destruct (str_eqb (t_text t) (s_ "{")); [exact M|]; clear M; cbv zeta;
       destruct (_ || _);
       [destruct l as [|t1 l1]; [exact I|]; cbn [map app];
        destruct (op_by_arity 2 (t_text t1)); [|reflexivity]; apply U
       |destruct (op_by_arity 1 (t_text t)); [|reflexivity]; apply U]).
    - (* until *)
      intro c. rewrite !parse_until_eq, !HD. destruct (str_eqb _ _); [apply strict_ok|].
      apply strict_bind with (p := false); [apply (Q5 (-1))| |].
      + intros a l0. apply strict_strict; [apply IH|intros; apply strict_ok].
      + intros a rest D. rewrite (NO _ _ D eq_refl). apply fails_bind, until_fail.
  Qed.
End Final.

Lemma bad_syntax_final : forall V l m, @parse_program V (program l) = PErr BadSyntax ->
  @parse_program V (program (l ++ m)) = PErr BadSyntax.
Proof.
  intros V l m H. unfold parse_program in *.
  assert (E : program (l ++ m) = map Some l ++ program m).
  { unfold program. rewrite map_app, <- app_assoc. reflexivity. }
  rewrite E.
  assert (L : (parse_fuel (program l) <= parse_fuel (map Some l ++ program m))%nat).
  { unfold parse_fuel, program. rewrite !app_length, !map_length. simpl. lia. }
  assert (X : program m <> []) by (unfold program; destruct m; discriminate).
  pose proof (proj1 (@parse_sim V (program m) _ _ L l)) as S.
  unfold program in S at 1. unfold program in H at 2. rewrite H in S. exact S.
Qed.
