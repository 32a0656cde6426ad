(** * The parser always ends, inside the token list, with balanced braces *)

From Coq Require Import String List NArith ZArith Bool Arith Lia.
From Verif Require Import PyStr StrFacts Tokens OpFun OpTable Parse ParseEq SpecSyntax.
Import ListNotations.
Local Open Scope Z_scope.

Inductive wf : toklist -> Prop :=
| wf_end : wf [None]
| wf_tok : forall t ts, proper t -> wf ts -> wf (Some t :: ts).

Lemma wf_program : forall l, Forall proper l -> wf (program l).
Proof.
  unfold program. induction l as [|t l IH]; intro H; [constructor|].
  inversion H; subst. constructor; auto.
Qed.

Lemma wf_inv : forall ts, wf ts -> exists l, ts = program l /\ Forall proper l.
Proof.
  induction 1 as [|t ts P W (l & E & F)]; [exists []; auto|].
  exists (t :: l). subst. split; [reflexivity|constructor; auto].
Qed.

Definition good {A} (strict : bool) (ts : toklist) (x : pres A) : Prop :=
  match x with
  | POk _ rest => exists used, ts = map Some used ++ rest /\ wf rest
                  /\ balance used = 0 /\ (strict = true -> used <> [])
  | PErr BadSyntax | PErr IncompleteSyntax => True
  | PErr _ => False
  end.

Lemma balance_app : forall a b, balance (a ++ b) = balance a + balance b.
Proof. induction a as [|t a IH]; intro b; simpl; [reflexivity|]. rewrite IH. lia. Qed.

Lemma good_weak : forall {A} b ts (x : pres A), good true ts x -> good b ts x.
Proof.
  intros A b ts [a rest|[]] H; try exact H. destruct H as (u & E & W & B & S).
  exists u. repeat split; auto.
Qed.

Lemma good_weak' : forall {A} b ts (x : pres A), good b ts x -> good false ts x.
Proof.
  intros A b ts [a rest|[]] H; try exact H. destruct H as (u & E & W & B & S).
  exists u. repeat split; auto. discriminate.
Qed.

Lemma good_bind : forall {A B} s1 s2 ts (x : pres A) (f : A -> toklist -> pres B),
  good s1 ts x ->
  (forall a rest, wf rest ->
     (length rest + (if s1 then 1 else 0) <= length ts)%nat -> good s2 rest (f a rest)) ->
  good (s1 || s2) ts (pbind x f).
Proof.
  intros A B s1 s2 ts [a rest|[]] f G H; try exact G; simpl.
  destruct G as (u & E & W & B1 & S1).
  assert (L : (length rest + (if s1 then 1 else 0) <= length ts)%nat).
  { rewrite E, app_length, map_length. destruct s1; [|lia].
    destruct u; [destruct (S1 eq_refl); reflexivity|simpl; lia]. }
  specialize (H a rest W L).
  destruct (f a rest) as [b r2|[]]; try exact H. simpl in *.
  destruct H as (v & E2 & W2 & B2 & S2).
  exists (u ++ v). split; [rewrite E, E2, map_app, app_assoc; reflexivity|].
  split; [exact W2|]. split; [rewrite balance_app; lia|].
  intro S. destruct s1; simpl in S.
  - intro X. apply app_eq_nil in X. apply S1; tauto.
  - intro X. apply app_eq_nil in X. apply S2; tauto.
Qed.

Lemma good_cons : forall {A} b b' t ts (x : pres A),
  brace t = 0 -> good b ts x -> good b' (Some t :: ts) x.
Proof.
  intros A b b' t ts [a rest|[]] B H; try exact H. simpl in *.
  destruct H as (u & E & W & B1 & S). exists (t :: u). split; [simpl; rewrite E; reflexivity|].
  split; [exact W|]. split; [simpl; lia|]. discriminate.
Qed.

Lemma good_ok : forall {A} (a : A) ts, wf ts -> good false ts (POk a ts).
Proof. intros A a ts W. exists []. repeat split; auto. discriminate. Qed.

Lemma head_brace : forall t, t_kind t <> KSymbol -> proper t -> brace t = 0.
Proof.
  intros t K (_ & P). unfold brace.
  destruct (str_eqb (t_text t) (s_ "{")) eqn:E1.
  - apply str_eqb_eq in E1. destruct K. apply P. auto.
  - destruct (str_eqb (t_text t) (s_ "}")) eqn:E2; [|reflexivity].
    apply str_eqb_eq in E2. destruct K. apply P. auto.
Qed.

Lemma text_brace : forall t s, str_eqb (t_text t) (s_ s) = true ->
  str_eqb (s_ s) (s_ "{") = false -> str_eqb (s_ s) (s_ "}") = false -> brace t = 0.
Proof.
  intros t s E H1 H2. apply str_eqb_eq in E. unfold brace. rewrite E, H1, H2. reflexivity.
Qed.

Lemma op_brace : forall n t o, op_by_arity n (t_text t) = Some o -> brace t = 0.
Proof.
  intros n t o H. unfold op_by_arity in H. apply find_some in H. destruct H as [Hin H].
  apply andb_prop in H. destruct H as [_ H]. apply str_eqb_eq in H.
  assert (C : forallb (fun o => negb (str_eqb (o_text o) (s_ "{"))
                                && negb (str_eqb (o_text o) (s_ "}"))) (rev all_ops) = true)
    by (vm_compute; reflexivity).
  rewrite forallb_forall in C. specialize (C o Hin). apply andb_prop in C. destruct C as [C1 C2].
  unfold brace. rewrite <- H. apply negb_true_iff in C1, C2. rewrite C1, C2. reflexivity.
Qed.

Lemma head_is_some : forall t ts s, head_is (Some t :: ts) s = str_eqb (t_text t) (s_ s).
Proof. reflexivity. Qed.

(** After a statement or a name list, an optional semicolon. *)
Lemma good_semi : forall {A} (a : A) ts, wf ts ->
  good false ts (match ts with
                 | [] => PErr PIndexError
                 | _ :: ts' => if head_is ts ";" then POk a ts' else POk a ts
                 end).
Proof.
  intros A a ts W. destruct W as [|t ts P W].
  - simpl. apply (good_ok a [None]). constructor.
  - rewrite head_is_some. destruct (str_eqb (t_text t) (s_ ";")) eqn:E.
    + apply good_cons with (b := false); [|apply good_ok; exact W].
      apply (text_brace t _ E); reflexivity.
    + apply good_ok. constructor; auto.
Qed.

Section Good.
  Context {V : Type}.
  Local Notation tr := (tree V).
  Local Notation len := (@length (option token)).

  Lemma names_good : forall f,
    (forall ts, wf ts -> (10 * len ts + 1 <= f)%nat -> good true ts (@parse_name_list V f ts))
    /\ (forall ts, wf ts -> (10 * len ts + 2 <= f)%nat -> good true ts (@parse_names V f ts)).
  Proof.
    induction f as [|f (IH1 & IH2)]; split; intros ts W L; try lia.
    - cbn [parse_name_list]. destruct W as [|t ts P W]; [exact I|]. simpl length in L.
      assert (F : forall (x : tr) r, wf r -> good false r (match r with
                 | [] => PErr PIndexError
                 | _ :: r' => if head_is r ";" then POk x r' else POk x r end))
        by (intros; apply good_semi; assumption).
      assert (R : good true (Some t :: ts)
                  (if str_eqb (t_text t) (s_ "[")
                   then pbind (@parse_names V f ts) (fun names ts2 =>
                     match names with
                     | [] => PErr BadSyntax
                     | _ => match ts2 with
                            | [] => PErr PIndexError
                            | _ :: ts' => if head_is ts2 ";" then POk (TApp op_enlist names) ts'
                                          else POk (TApp op_enlist names) ts2
                            end
                     end)
                   else PErr BadSyntax)).
      { destruct (str_eqb (t_text t) (s_ "[")) eqn:E; [|exact I].
        apply good_cons with (b := true); [apply (text_brace t _ E); reflexivity|].
        apply (good_bind true false); [apply IH2; auto; lia|].
        intros names r Wr Lr. destruct names; [exact I|]. apply F, Wr. }
      destruct (t_kind t) eqn:K; try exact R.
      apply good_cons with (b := false); [|apply F, W].
      apply head_brace; [rewrite K; discriminate|exact P].
    - cbn [parse_names]. destruct W as [|t ts P W].
      + simpl. destruct f; [lia|]. exact I.
      + rewrite head_is_some. destruct (str_eqb (t_text t) (s_ "]")) eqn:E.
        * apply good_cons with (b := false); [apply (text_brace t _ E); reflexivity|].
          apply good_ok, W.
        * simpl length in L.
          apply (good_bind true false); [apply IH1; [constructor; auto|simpl; lia]|].
          intros a r Wr Lr. simpl length in Lr.
          apply (good_bind false false); [eapply good_weak', IH2; auto; lia|].
          intros. apply good_ok. assumption.
  Qed.

  Definition block_fuel (ts : toklist) : nat :=
    if head_is ts "{" then 10 * len ts else 10 * len ts + 4.

  Lemma parse_good : forall f,
    (forall ts, wf ts -> (10 * len ts + 4 <= f)%nat -> good false ts (@parse V f ts))
    /\ (forall ts, wf ts -> (10 * len ts + 3 <= f)%nat -> good true ts (@parse_statement V f ts))
    /\ (forall ty ts, wf ts -> (10 * len ts + 5 + length ty <= f)%nat ->
          good false ts (@parse_args V f ty ts))
    /\ (forall ts, wf ts -> (block_fuel ts <= f)%nat -> good true ts (@parse_block V f ts))
    /\ (forall p ts, wf ts -> (10 * len ts + 2 <= f)%nat -> good true ts (@parse_expr V f p ts))
    /\ (forall p e ts, wf ts -> (10 * len ts + 1 <= f)%nat -> good false ts (@parse_infix V f p e ts))
    /\ (forall ts, wf ts -> (10 * len ts + 1 <= f)%nat -> good true ts (@parse_operand V f ts))
    /\ (forall c ts, wf ts -> (10 * len ts + 3 <= f)%nat ->
          brace (Tok KSymbol (s_ c)) = 0 -> good true ts (@parse_until V f c ts)).
  Proof.
    induction f as [|f (IHp & IHs & IHa & IHb & IHe & IHi & IHo & IHu)].
    { repeat split; intros; try lia.
      unfold block_fuel in *. destruct H; simpl in *; [lia|]. 
      destruct (str_eqb (t_text t) (s_ "{")); simpl in *; lia. }
    split; [|split; [|split; [|split; [|split; [|split; [|split]]]]]].
    - (* parse *)
      intros ts W L. rewrite parse_eq. destruct W as [|t ts P W].
      + apply (good_ok (@nil tr) [None]). constructor.
      + destruct (str_eqb (t_text t) (s_ "}")); [apply good_ok; constructor; auto|].
        apply (good_weak' true), (good_bind true false).
        * apply IHs; [constructor; auto|lia].
        * intros st r Wr Lr. simpl length in *.
          apply (good_bind false false); [apply IHp; auto; lia|].
          intros. apply good_ok. assumption.
    - (* parse_statement *)
      intros ts W L. rewrite parse_statement_eq. destruct W as [|t ts P W]; [exact I|].
      assert (R : good true (Some t :: ts)
                    (pbind (@parse_expr V f (-1) (Some t :: ts)) (fun st ts0 =>
                       match ts0 with
                       | [] => PErr PIndexError
                       | _ :: ts' => if head_is ts0 ";" then POk st ts' else POk st ts0
                       end))).
      { apply (good_bind true false); [apply IHe; [constructor; auto|lia]|].
        intros. apply good_semi. assumption. }
      destruct (t_kind t) eqn:K; try exact R.
      destruct (command_of (t_text t)) as [c|] eqn:C;
        [|exact (proj1 P K C)].
      apply good_cons with (b := false); [apply head_brace; [rewrite K; discriminate|exact P]|].
      assert (C3 : (length (c_args c) <= 3)%nat).
      { unfold command_of in C. apply find_some in C. destruct C as [Hin _].
        revert Hin. unfold cmd_table. simpl.
        intros H. repeat (destruct H as [H|H]; [subst c; simpl; lia|]). destruct H. }
      simpl length in L.
      apply (good_bind false false); [apply IHa; auto; lia|].
      intros. apply good_semi. assumption.
    - (* parse_args *)
      intros ty ts W L. rewrite parse_args_eq. destruct ty as [|a ty]; [apply good_ok, W|].
      simpl length in L.
      apply (good_bind false false).
      + destruct a.
        * eapply good_weak', (proj1 (names_good f)); auto; lia.
        * eapply good_weak', IHe; auto; lia.
        * apply (good_bind false false); [|intros; apply good_ok; assumption].
          eapply good_weak', IHb; auto. unfold block_fuel. destruct (head_is ts "{"); lia.
        * destruct W as [|t ts P W]; [apply (good_ok (TBlk []) [None]); constructor|].
          rewrite head_is_some. destruct (str_eqb (t_text t) (s_ "EL")) eqn:E.
          -- apply good_cons with (b := false); [apply (text_brace t _ E); reflexivity|].
             apply (good_bind false false); [|intros; apply good_ok; assumption].
             eapply good_weak', IHb; auto. unfold block_fuel. simpl length in L.
             destruct (head_is ts "{"); lia.
          -- apply good_ok. constructor; auto.
      + intros x r Wr Lr. apply (good_bind false false); [apply IHa; auto; lia|].
        intros. apply good_ok. assumption.
    - (* parse_block *)
      intros ts W L. rewrite parse_block_eq. destruct W as [|t ts P W].
      + simpl. unfold block_fuel in L. simpl in L.
        apply (good_bind true false); [apply IHs; [constructor|simpl; lia]|].
        intros. apply good_ok. assumption.
      + unfold block_fuel in L. rewrite head_is_some in *.
        destruct (str_eqb (t_text t) (s_ "{")) eqn:E.
        * simpl length in L. specialize (IHp ts W ltac:(lia)).
          destruct (@parse V f ts) as [sts r|[]]; try exact IHp. simpl.
          destruct IHp as (u & Eu & Wr & Bu & _).
          destruct Wr as [|t2 r P2 Wr]; [exact I|]. rewrite head_is_some.
          destruct (str_eqb (t_text t2) (s_ "}")) eqn:E2; [|exact I].
          exists (t :: u ++ [t2]). split.
          { simpl. rewrite map_app, <- app_assoc. simpl. rewrite Eu. reflexivity. }
          split; [exact Wr|]. split; [|discriminate].
          simpl. rewrite balance_app. simpl. unfold brace at 1. rewrite E.
          apply str_eqb_eq in E2.
          assert (B2 : brace t2 = -1) by (unfold brace; rewrite E2; reflexivity). lia.
        * apply (good_bind true false); [apply IHs; [constructor; auto|lia]|].
          intros. apply good_ok. assumption.
    - (* parse_expr *)
      intros p ts W L. rewrite parse_expr_eq.
      apply (good_bind true false); [apply IHo; auto; lia|].
      intros e r Wr Lr. cbv iota in Lr.
      apply (good_bind false false); [apply IHi; auto; lia|].
      intros e2 r2 Wr2 Lr2. destruct (p =? -1).
      + apply good_semi, Wr2.
      + destruct Wr2 as [|t r2 P2 Wr2].
        * apply (good_ok e2 [None]). constructor.
        * apply good_ok. constructor; auto.
    - (* parse_infix *)
      intros p e ts W L. rewrite parse_infix_eq. destruct W as [|t ts P W].
      { apply (good_ok e [None]). constructor. }
      destruct (t_kind t) eqn:K; try (apply good_ok; constructor; auto).
      destruct (infix_op t) as [op|] eqn:EO; [|apply good_ok; constructor; auto].
      assert (B0 : brace t = 0).
      { apply head_brace; [rewrite K; discriminate|exact P]. }
      assert (W0 : wf (Some t :: ts)) by (constructor; auto).
      destruct ts as [|t1 ts1]; [inversion W|].
      cbv zeta. destruct (_ <? p); [apply good_ok; exact W0|].
      assert (STEP : forall op' ts2, wf ts2 -> (length ts2 <= length (t1 :: ts1))%nat ->
        good false ts2
        (let is_c := assoc_eqb (o_assoc op') AChain in
         let '(spine, (aop, aargs)) := bubble (if is_c then op_chain else op') e in
         let middle : pres (list tr) :=
           if is_c then POk [TOpr op'] ts2
           else if (o_arity op' =? 3)%nat
                then pbind (@parse_expr V f (-1) ts2) (fun m ts3 => POk [m] ts3)
                else POk [] ts2 in
         pbind middle (fun mid ts3 =>
         pbind (parse_operand f ts3) (fun x ts4 =>
         parse_infix f p (rebuild spine (TApp aop (aargs ++ mid ++ [x]))) ts4)))).
      { intros op' ts2 W2 L2. cbv zeta.
        destruct (bubble _ e) as [spine [aop aargs]].
        change (length (t1 :: ts1)) with (S (length ts1)) in *.
        simpl length in L.
        apply (good_bind false false).
        - destruct (assoc_eqb (o_assoc op') AChain); [apply good_ok, W2|].
          destruct (o_arity op' =? 3)%nat; [|apply good_ok, W2].
          apply (good_bind false false); [eapply good_weak', IHe; auto; simpl in *; lia|].
          intros. apply good_ok. assumption.
        - intros mid r3 W3 L3.
          apply (good_bind false false); [eapply good_weak', IHo; auto; simpl in *; lia|].
          intros x r4 W4 L4. apply IHi; auto. simpl in *. lia. }
      destruct t1 as [t1|].
      + rewrite head_is_some. inversion W; subst.
        destruct (str_eqb (t_text t1) (s_ ":")) eqn:EC.
        * apply good_cons with (b := false); [exact B0|].
          apply good_cons with (b := false); [apply (text_brace t1 _ EC); reflexivity|].
          apply STEP; auto. simpl. lia.
        * apply good_cons with (b := false); [exact B0|].
          apply STEP; auto.
      + simpl head_is. cbv iota. apply good_cons with (b := false); [exact B0|].
        apply STEP; auto.
    - (* parse_operand *)
      intros ts W L. rewrite parse_operand_eq. cbv zeta. destruct W as [|t ts P W]; [exact I|].
      simpl length in L.
      assert (U : forall (op : oper) r, wf r -> (length r <= length ts)%nat ->
        good false r
        (match r with
         | [] => PErr PIndexError
         | _ :: ts2' =>
           let '(op, ts3) := if head_is r "*"
                             then (op_set_map op, ts2') else (op, r) in
           match ts3 with
           | [] => PErr PIndexError
           | _ :: ts3' =>
             let '(op, ts4) :=
               if head_is ts3 ":"
               then (op_set_assign op (o_prec assign_op) (o_assoc op), ts3')
               else (op, ts3) in
             pbind (@parse_expr V f (o_prec op + 1) ts4) (fun x ts5 =>
             POk (TApp op [x]) ts5)
           end
         end)).
      { assert (U2 : forall (op : oper) r, wf r -> (length r <= length ts)%nat ->
          good false r
           (match r with
            | [] => PErr PIndexError
            | _ :: ts3' =>
              let '(op, ts4) :=
                if head_is r ":"
                then (op_set_assign op (o_prec assign_op) (o_assoc op), ts3')
                else (op, r) in
              pbind (@parse_expr V f (o_prec op + 1) ts4) (fun x ts5 =>
              POk (TApp op [x]) ts5)
            end)).
        { intros op r Wr Lr. destruct Wr as [|t2 r P2 Wr].
          - simpl head_is. cbv iota.
            apply (good_bind false false); [eapply good_weak', IHe; [constructor|simpl in *; lia]|].
            intros. apply good_ok. assumption.
          - rewrite head_is_some. destruct (str_eqb (t_text t2) (s_ ":")) eqn:EC.
            + apply good_cons with (b := false); [apply (text_brace t2 _ EC); reflexivity|].
              apply (good_bind false false); [eapply good_weak', IHe; auto; simpl in *; lia|].
              intros. apply good_ok. assumption.
            + apply (good_bind false false);
                [eapply good_weak', IHe; [constructor; auto|simpl in *; lia]|].
              intros. apply good_ok. assumption. }
        intros op r Wr Lr. destruct Wr as [|t2 r P2 Wr].
        - simpl head_is. cbv iota. apply (U2 op [None]); [constructor|exact Lr].
        - rewrite head_is_some. destruct (str_eqb (t_text t2) (s_ "*")) eqn:EC.
          + apply good_cons with (b := false); [apply (text_brace t2 _ EC); reflexivity|].
            apply U2; auto. simpl in *. lia.
          + apply (U2 op (Some t2 :: r)); [constructor; auto|exact Lr]. }
      assert (LIT : forall (x : tr), t_kind t <> KSymbol -> good true (Some t :: ts) (POk x ts)).
      { intros x K. apply good_cons with (b := false); [apply head_brace; auto|].
        apply good_ok, W. }
      destruct (t_kind t) eqn:K; try (apply LIT; discriminate);
      (destruct (str_eqb (t_text t) (s_ "(")) eqn:E1;
       [apply good_cons with (b := false); [apply (text_brace t _ E1); reflexivity|];
        apply (good_bind false false); [eapply good_weak', IHu; [auto|lia|reflexivity]|];
        intros es r Wr Lr; destruct es as [|e1 [|e2 es]]; apply good_ok; exact Wr|]);
      (destruct (str_eqb (t_text t) (s_ "[")) eqn:E2;
       [apply good_cons with (b := false); [apply (text_brace t _ E2); reflexivity|];
        apply (good_bind false false); [eapply good_weak', IHu; [auto|lia|reflexivity]|];
        intros es r Wr Lr; apply good_ok; exact Wr|]);
      (destruct (str_eqb (t_text t) (s_ "{")) eqn:E3;
       [apply (good_bind true false);
        [apply IHb; [constructor; auto|unfold block_fuel; rewrite head_is_some, E3; simpl; lia]|];
        intros; apply good_ok; assumption|]);
      (destruct (str_eqb (t_text t) (s_ "$") || str_eqb (t_text t) (s_ "\$")) eqn:E4;
       [apply good_cons with (b := false);
        [apply orb_prop in E4; destruct E4 as [E4|E4]; apply (text_brace t _ E4); reflexivity|];
        destruct W as [|t1 ts P1 W]; [exact I|];
        destruct (op_by_arity 2 (t_text t1)) as [op|] eqn:EO; [|exact I];
        apply good_cons with (b := false); [apply (op_brace _ _ _ EO)|];
        apply U; [exact W|simpl; lia]|]);
      (destruct (op_by_arity 1 (t_text t)) as [op|] eqn:EO; [|exact I];
       apply good_cons with (b := false); [apply (op_brace _ _ _ EO)|];
       apply U; [exact W|lia]).
    - (* parse_until *)
      intros c ts W L B. rewrite parse_until_eq. destruct W as [|t ts P W]; [exact I|].
      rewrite head_is_some. destruct (str_eqb (t_text t) (s_ c)) eqn:E.
      + apply good_cons with (b := false).
        * apply str_eqb_eq in E. unfold brace in *. simpl t_text in B. rewrite E. exact B.
        * apply good_ok, W.
      + apply (good_bind true false); [apply IHe; [constructor; auto|lia]|].
        intros e r Wr Lr. simpl length in *.
        apply (good_bind false false); [eapply good_weak', IHu; auto; lia|].
        intros. apply good_ok. assumption.
  Qed.

  Lemma parse_stops : forall f ts (a : list tr) rest, parse f ts = POk a rest ->
    exists r, rest = None :: r \/ exists t, rest = Some t :: r /\ t_text t = s_ "}".
  Proof.
    induction f as [|f IH]; intros ts a rest H; [discriminate|]. rewrite parse_eq in H.
    destruct ts as [|[t|] ts]; [discriminate| |].
    - destruct (str_eqb (t_text t) (s_ "}")) eqn:E.
      + injection H as _ <-. exists ts. right. exists t. split; [reflexivity|].
        apply str_eqb_eq, E.
      + destruct (parse_statement f (Some t :: ts)) as [st r|]; [|discriminate]. simpl in H.
        destruct (parse f r) as [sts r2|] eqn:E2; [|discriminate]. injection H as _ <-.
        apply (IH _ _ _ E2).
    - injection H as _ <-. exists ts. left. reflexivity.
  Qed.

  (** ** C35 and C38 *)

  Lemma program_length : forall l, length (program l) = S (length l).
  Proof. intro l. unfold program. rewrite app_length, map_length. simpl. lia. Qed.

  Lemma parse_total : forall l, Forall proper l ->
    (exists sts rest, @parse_program V (program l) = POk sts rest)
    \/ @parse_program V (program l) = PErr BadSyntax
    \/ @parse_program V (program l) = PErr IncompleteSyntax.
  Proof.
    intros l F. unfold parse_program.
    assert (G : good false (program l) (@parse V (parse_fuel (program l)) (program l))).
    { apply (proj1 (parse_good _)); [apply wf_program, F|]. unfold parse_fuel. lia. }
    destruct (parse _ _) as [sts rest|[]]; [left; eauto| | | | |]; try destruct G; auto.
  Qed.

  Lemma parse_consumes : forall l sts rest, Forall proper l ->
    @parse_program V (program l) = POk sts rest ->
    exists used, balance used = 0
      /\ (l = used /\ rest = [None]
          \/ exists t more, l = used ++ t :: more /\ rest = program (t :: more)
                            /\ t_text t = s_ "}").
  Proof.
    intros l sts rest F H. unfold parse_program in H.
    assert (G : good false (program l) (@parse V (parse_fuel (program l)) (program l))).
    { apply (proj1 (parse_good _)); [apply wf_program, F|]. unfold parse_fuel. lia. }
    rewrite H in G. destruct G as (u & E & W & B & _). exists u. split; [exact B|].
    destruct (wf_inv _ W) as (l2 & -> & _).
    assert (E2 : l = u ++ l2).
    { unfold program in E. rewrite app_assoc, <- map_app in E.
      apply app_inj_tail in E. destruct E as [E _].
      clear -E. revert E. generalize (u ++ l2) as m. induction l as [|t l IH]; intros [|x m] E;
        try discriminate; [reflexivity|]. simpl in E. injection E as -> E. rewrite (IH m E). reflexivity. }
    destruct (parse_stops _ _ _ _ H) as (r & [S|(t & S & T)]).
    - left. destruct l2; [|discriminate S]. rewrite app_nil_r in E2. auto.
    - right. destruct l2 as [|t2 l2]; [discriminate S|].
      assert (t2 = t) by (unfold program in S; simpl in S; congruence). subst t2.
      exists t, l2. auto.
  Qed.

  Lemma parse_whole : forall l sts rest, Forall proper l -> braces_match l ->
    @parse_program V (program l) = POk sts rest -> rest = [None].
  Proof.
    intros l sts rest F M H. destruct (parse_consumes l sts rest F H) as (u & B & [(_ & R)|X]); [exact R|].
    destruct X as (t & more & E & _ & T).
    specialize (M (u ++ [t]) more ltac:(rewrite E, <- app_assoc; reflexivity)).
    rewrite balance_app in M. simpl in M. unfold brace in M. rewrite T in M. simpl in M. lia.
  Qed.
End Good.
