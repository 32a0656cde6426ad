(** * What the parser returns is derived by the grammar *)

From Coq Require Import String List NArith ZArith Bool Arith Lia.
From Verif Require Import PyStr StrFacts Tokens OpFun OpTable Parse ParseEq ParseMono SpecScan SpecRepr.
From Verif Require Import SpecGrammar TemplateProof GrammarProof.
From Verif Require SpecSyntax ParseProof ScanProof.
Import ListNotations.
Local Open Scope string_scope.
Local Open Scope list_scope.
Local Open Scope Z_scope.

Notation toks := (Forall token_text).

Lemma head_program l w : head_is (program l) w = match l with t :: _ => str_eqb (t_text t) (s_ w) | [] => false end.
Proof. destruct l; reflexivity. Qed.

Lemma head_sym l w : toks l -> In w symbols -> head_is (program l) w = true -> exists l', l = sym w :: l'.
Proof.
  intros T I H. rewrite head_program in H. destruct l as [|t l]; [discriminate|]. inversion T; subst.
  apply str_eqb_eq in H. exists l. f_equal. apply symbol_tok; auto.
Qed.

Lemma head_not l w : head_is (program l) w = false -> hd_error l <> Some (sym w).
Proof.
  rewrite head_program. intros H E. destruct l as [|t l]; [discriminate|]. injection E as ->.
  cbn [sym t_text] in H. rewrite str_eqb_refl in H. discriminate.
Qed.

Lemma head_mark l w : toks l -> is_op_text (s_ w) = true -> head_is (program l) w = true ->
  exists l', l = mark w :: l'.
Proof.
  intros T I H. rewrite head_program in H. destruct l as [|t l]; [discriminate|]. inversion T; subst.
  apply str_eqb_eq in H. unfold is_op_text in I. apply existsb_exists in I. destruct I as (o & J & E).
  apply str_eqb_eq in E. exists l. f_equal. unfold mark. rewrite <- E. apply operator_tok; congruence.
Qed.

Lemma infix_between t o : infix_op t = Some o <-> between (t_text t) o.
Proof.
  unfold infix_op, between.
  destruct (op_by_arity 2 (t_text t)) as [a|] eqn:A.
  - split; [auto|]. intros [H|H]; [exact H|]. exfalso.
    destruct (in_table _ _ _ A) as (I & E & R). destruct (in_table _ _ _ H) as (I2 & E2 & R2).
    assert (C : forallb (fun a => forallb (fun b =>
       negb ((o_arity a =? 2) && (o_arity b =? 3))%nat || negb (str_eqb (o_text a) (o_text b))) all_ops) all_ops = true)
      by (vm_compute; reflexivity).
    rewrite forallb_forall in C. specialize (C a I). cbv beta in C. rewrite forallb_forall in C.
    specialize (C o I2). cbv beta in C. rewrite R, R2, E, E2, str_eqb_refl in C. discriminate C.
  - split; [auto|]. intros [H|H]; [discriminate H|exact H].
Qed.

(** The precedence of the operator [o] before [rest]. *)
Definition ahead_prec (o : oper) (rest : list token) : Z :=
  if head_is (program rest) ":" then o_prec assign_op else o_prec o.
(** No operator of precedence [m] or more follows. *)
Definition stops (m : Z) (l : list token) : Prop :=
  forall t o rest, l = Tok KOperator t :: rest -> between t o -> ahead_prec o rest < m.

Lemma stops_all l : stops (-1) l -> ~ operator_ahead l.
Proof.
  intros S (t & o & rest & -> & B). specialize (S t o rest eq_refl B).
  destruct (between_table _ _ B) as (I & _). pose proof (g_prec o (op_goods o I)). pose proof assign_prec.
  unfold ahead_prec in S. destruct (head_is _ _); lia.
Qed.

Section Sound.
  Context {V : Type}.
  Local Notation tr := (tree V).

  Ltac bindok H :=
    match type of H with
    | pbind ?x ?k = POk _ _ =>
        let a := fresh "a" in let r := fresh "r" in let E := fresh "E" in
        destruct x as [a r|] eqn:E; [cbn [pbind] in H|discriminate H]
    end.

  (** An optional semicolon. *)
  Lemma semi_ok {A} (x : A) l y rest : toks l ->
    match program l with
    | [] => PErr PIndexError
    | _ :: ts' => if head_is (program l) ";" then POk x ts' else POk x (program l)
    end = POk y rest -> y = x /\ exists s r, l = s ++ r /\ rest = program r /\ semi s r.
  Proof.
    intros T H. destruct (head_is (program l) ";") eqn:E.
    - destruct (head_sym l ";" T) as (l' & ->); [cbn; auto 10|exact E|].
      cbn in H. injection H as <- <-. split; [reflexivity|]. exists [sym ";"], l'. repeat split. constructor.
    - pose proof (head_not _ _ E). assert (Y : y = x /\ rest = program l).
      { destruct (program l); [discriminate H|]. injection H as <- <-. auto. }
      destruct Y as [-> ->]. split; [reflexivity|]. exists [], l. repeat split. constructor. assumption.
  Qed.

  Lemma toks_app a b : toks (a ++ b) -> toks a /\ toks b.
  Proof. apply Forall_app. Qed.

  Lemma names_sound : forall f,
    (forall l (x : tr) rest, toks l -> parse_name_list f (program l) = POk x rest ->
       exists u r, l = u ++ r /\ rest = program r /\ variable x u r)
    /\ (forall l (xs : list tr) rest, toks l -> parse_names f (program l) = POk xs rest ->
       exists u r, l = u ++ sym "]" :: r /\ rest = program r /\ variables xs u [sym "]"]).
  Proof.
    induction f as [|f (IH1 & IH2)]; [split; intros; discriminate|]. split; intros l x rest T H.
    - destruct l as [|t l]; [discriminate H|]. inversion T as [|? ? Tt Tl]; subst.
      cbn [parse_name_list] in H. change (program (t :: l)) with (Some t :: program l) in H. cbv iota beta in H.
      destruct (tkind_eqb (t_kind t) KName) eqn:K.
      + assert (K' : t_kind t = KName) by (destruct (t_kind t); try discriminate K; reflexivity).
        rewrite K' in H. destruct (semi_ok _ _ _ _ Tl H) as (-> & s & r & -> & -> & S).
        exists (t :: s), r. repeat split. constructor; auto.
      + assert (H' : (if str_eqb (t_text t) (s_ "[")
          then pbind (parse_names f (program l)) (fun names ts2 =>
               match names with
               | [] => PErr BadSyntax
               | _ => match ts2 with
                      | [] => PErr PIndexError
                      | _ :: ts' => if head_is ts2 ";" then POk (TApp op_enlist names) ts' else POk (TApp op_enlist names) ts2
                      end
               end)
          else PErr BadSyntax) = POk x rest) by (destruct (t_kind t); try discriminate K; exact H).
        clear H. destruct (str_eqb _ _) eqn:E; [|discriminate H']. apply str_eqb_eq in E.
        pose proof (symbol_tok t "[" Tt ltac:(cbn; auto) E) as ->.
        bindok H'. destruct (IH2 _ _ _ Tl E0) as (u & r2 & -> & -> & VS).
        destruct a as [|a as_]; [discriminate H'|].
        apply toks_app in Tl. destruct Tl as [Tu Tr]. inversion Tr; subst.
        destruct (semi_ok _ r2 _ _ ltac:(assumption) H') as (-> & s & r3 & -> & -> & S).
        exists (sym "[" :: u ++ sym "]" :: s), r3. split; [|split; [reflexivity|constructor; auto]].
        cbn [app]. rewrite <- app_assoc. reflexivity.
    - destruct l as [|t l]; [cbn in H; destruct f; discriminate H|]. inversion T as [|? ? Tt Tl]; subst.
      cbn [parse_names] in H. change (program (t :: l)) with (Some t :: program l) in H. cbv iota beta in H.
      rewrite ParseProof.head_is_some in H. destruct (str_eqb _ _) eqn:E.
      + apply str_eqb_eq in E. pose proof (symbol_tok t "]" Tt ltac:(cbn; auto) E) as ->.
        injection H as <- <-. exists [], l. repeat split. constructor.
      + bindok H. bindok H. injection H as <- <-.
        destruct (IH1 (t :: l) _ _ T E0) as (u & r1 & EQ & -> & VX). rewrite EQ in T. apply toks_app in T.
        destruct (IH2 _ _ _ (proj2 T) E1) as (u2 & r2 & -> & -> & VS).
        exists (u ++ u2), r2. split; [rewrite EQ, <- app_assoc; reflexivity|]. split; [reflexivity|].
        constructor; [|exact VS]. eapply variable_hd; [exact VX|]. destruct u2; reflexivity.
  Qed.

  Definition at_least (m : Z) (e : tr) : Prop := forall p, rooted e p -> m <= o_prec p.
  Definition edges_stop (e : tr) (l : list token) : Prop := forall p, edge e p -> stops (o_prec p + 1) l.

  Lemma atom_sound t l (x : tr) rest : t_kind t <> KEscString -> In (t_kind t) [KName; KNumber; KString; KPattern; KChar] ->
    POk (TTok t) (program l) = POk x rest -> exists u r, t :: l = u ++ r /\ rest = program r /\ expr x u
      /\ (forall p, ~ rooted x p) /\ edges_stop x r.
  Proof.
    intros _ K H. injection H as <- <-. exists [t], l. split; [reflexivity|]. split; [reflexivity|].
    split; [constructor; exact K|]. split; [intros p (a & X & _); discriminate X|intros p X; inversion X].
  Qed.

  Lemma closed_parts (e : tr) u s r : expr e u -> semi s r -> stops (-1) (s ++ r) -> closed e (u ++ s) r.
  Proof.
    intros E S ST. constructor; auto. intros ->. apply stops_all, ST.
  Qed.

  Definition sound_operand f := forall l (x : tr) rest, toks l -> parse_operand f (program l) = POk x rest ->
    exists u r, l = u ++ r /\ rest = program r /\ expr x u /\ (forall p, ~ rooted x p) /\ edges_stop x r.
  Definition sound_expr f := forall m l (e : tr) rest, toks l -> parse_expr f m (program l) = POk e rest ->
    exists u s r, l = u ++ s ++ r /\ rest = program r /\ expr e u /\ at_least m e /\ edges_stop e (s ++ r)
      /\ stops m (s ++ r) /\ if m =? -1 then semi s r else s = [].
  Definition sound_infix f := forall m (e : tr) te l e' rest, toks l -> expr e te -> at_least m e -> edges_stop e l ->
    parse_infix f m e (program l) = POk e' rest ->
    exists u r, l = u ++ r /\ rest = program r /\ expr e' (te ++ u) /\ at_least m e' /\ edges_stop e' r /\ stops m r.
  Definition sound_until f := forall c l (es : list tr) rest, In c symbols -> toks l ->
    parse_until f c (program l) = POk es rest ->
    exists u r, l = u ++ sym c :: r /\ rest = program r /\ items es u [sym c].
  Definition sound_parse f := forall l (sts : list tr) rest, toks l -> parse f (program l) = POk sts rest ->
    exists u r, l = u ++ r /\ rest = program r /\ code sts u r /\ (r = [] \/ hd_error r = Some (sym "}")).
  Definition sound_statement f := forall l (st : tr) rest, toks l -> parse_statement f (program l) = POk st rest ->
    exists u r, l = u ++ r /\ rest = program r /\ statement st u r.
  Definition sound_args f := forall ty l (xs : list tr) rest, toks l -> parse_args f ty (program l) = POk xs rest ->
    exists u r, l = u ++ r /\ rest = program r /\ arguments ty xs u r.
  Definition sound_block f := forall l (sts : list tr) rest, toks l -> parse_block f (program l) = POk sts rest ->
    exists u r, l = u ++ r /\ rest = program r /\ body sts u r.

  Lemma expr_closed f : sound_expr f -> forall l (e : tr) rest, toks l -> parse_expr f (-1) (program l) = POk e rest ->
    exists u r, l = u ++ r /\ rest = program r /\ closed e u r /\ u <> [].
  Proof.
    intros S l e rest T H. destruct (S _ _ _ _ T H) as (u & s & r & -> & -> & E & _ & _ & ST & SM).
    cbn in SM. exists (u ++ s), r. split; [apply app_assoc|]. split; [reflexivity|].
    split; [apply closed_parts; auto|]. destruct (expr_starts _ _ E) as (k & q & -> & _). discriminate.
  Qed.

  Lemma infix_step_sound f m (e : tr) te ot o l e' rest : sound_operand f -> sound_expr f -> sound_infix f ->
    toks l -> expr e te -> at_least m e -> (forall p, edge e p -> o_prec o <= o_prec p) -> m <= o_prec o ->
    infix ot o \/ (exists t, ot = [Tok KOperator t] /\ comparison t o) ->
    (let is_c := assoc_eqb (o_assoc o) AChain in
     let '(spine, (aop, aargs)) := bubble (if is_c then op_chain else o) e in
     let middle : pres (list tr) :=
       if is_c then POk [TOpr o] (program l)
       else if (o_arity o =? 3)%nat
            then pbind (@parse_expr V f (-1) (program l)) (fun m ts3 => POk [m] ts3)
            else POk [] (program l) in
     pbind middle (fun mid ts3 =>
     pbind (parse_operand f ts3) (fun x ts4 =>
     parse_infix f m (rebuild spine (TApp aop (aargs ++ mid ++ [x]))) ts4))) = POk e' rest ->
    exists u r, l = u ++ r /\ rest = program r /\ expr e' (te ++ ot ++ u) /\ at_least m e' /\ edges_stop e' r /\ stops m r.
  Proof.
    intros SO SE SI T E AL ED MO OT H.
    (* the operand and the rest, once the middle is known *)
    assert (FIN : forall o' mid tm l2, joins o' -> infixy o' \/ o' = op_chain -> o_prec o' = o_prec o ->
      toks l2 -> l = tm ++ l2 ->
      (forall (x : tr) tx r, expr x tx -> (forall p, ~ rooted x p) -> l2 = tx ++ r ->
         (forall (y : tr) ty, expr y ty -> left_ok o' y -> expr (TApp o' (y :: mid ++ [x])) (ty ++ ot ++ tm ++ tx))
         /\ (o' = op_chain -> forall args ty, expr (TApp op_chain args) ty ->
              (forall p, edge (TApp op_chain args) p -> o_prec op_chain <= o_prec p) ->
              expr (TApp op_chain (args ++ mid ++ [x])) (ty ++ ot ++ tm ++ tx))) ->
      (let '(spine, (aop, aargs)) := bubble o' e in
       pbind (parse_operand f (program l2)) (fun x ts4 =>
         parse_infix f m (rebuild spine (TApp aop (aargs ++ mid ++ [x]))) ts4)) = POk e' rest ->
      exists u r, l = u ++ r /\ rest = program r /\ expr e' (te ++ ot ++ u) /\ at_least m e' /\ edges_stop e' r /\ stops m r).
    { intros o' mid tm l2 J J2 PO T2 EL K H2. unfold bubble in H2.
      destruct (bubble_fuel (spine_depth e) o' e) as [spine [aop aargs]] eqn:B.
      bindok H2. destruct (SO _ _ _ T2 E0) as (tx & r2 & EQ & -> & X & XR & XE).
      destruct (K a tx r2 X XR EQ) as (K1 & K2).
      pose proof (insert_sound o' mid a (ot ++ tm ++ tx) J J2 K1 K2 (spine_depth e) e te E
                    ltac:(intros p Ep; rewrite PO; auto) (le_n _)) as INS.
      rewrite B in INS. cbv zeta in INS. destruct INS as (I1 & I2 & I3).
      rewrite EQ in T2. apply toks_app in T2.
      assert (AL2 : at_least m (rebuild spine (TApp aop (aargs ++ mid ++ [a])))).
      { intros p Rp. destruct (I2 p Rp) as [->|Rp']; [lia|apply AL, Rp']. }
      assert (ED2 : edges_stop (rebuild spine (TApp aop (aargs ++ mid ++ [a]))) r2).
      { intros p Ep. apply XE, I3, Ep. }
      destruct (SI _ _ _ _ _ _ (proj2 T2) I1 AL2 ED2 H2) as (u & r & -> & -> & E' & AL' & ED' & ST').
      exists (tm ++ tx ++ u), r. split; [rewrite EL, EQ, <- !app_assoc; reflexivity|]. split; [reflexivity|].
      split; [|auto]. rewrite <- !app_assoc in E'. rewrite <- ?app_assoc. exact E'. }
    assert (ROK : forall o' (x : tr), (forall p, ~ rooted x p) -> right_ok o' x).
    { intros o' x N p R. destruct (N p R). }
    cbv zeta in H. destruct OT as [OT|(t & -> & CO)].
    - destruct (infix_joins _ _ OT) as (J & C & S).
      assert (NC : assoc_eqb (o_assoc o) AChain = false).
      { apply not_true_iff_false. rewrite assoc_eqb_eq. intros X. rewrite X in S. destruct S; discriminate. }
      rewrite NC in H. destruct (o_arity o =? 3)%nat eqn:A3.
      + apply Nat.eqb_eq in A3. destruct (bubble o e) as [spine [aop aargs]] eqn:B. bindok H. bindok E0.
        injection E0 as <- <-. destruct (expr_closed f SE _ _ _ T E1) as (tm & l2 & -> & -> & CL & NE).
        apply toks_app in T.
        apply (FIN o [a0] tm l2 J (or_introl (conj C S)) eq_refl (proj2 T) eq_refl); [|rewrite B; exact H].
        intros x tx r X XR ->. split.
        * intros y ty Y LY. apply ex_ternary; auto. apply (closed_hd a0 tm (tx ++ r)); [exact CL|].
          destruct (expr_starts _ _ X) as (k & q & -> & _). reflexivity.
        * intros EC. subst o. discriminate C.
      + assert (A2 : o_arity o = 2%nat).
        { apply Nat.eqb_neq in A3. destruct (j_arity o J); [assumption|contradiction]. }
        destruct (bubble o e) as [spine [aop aargs]] eqn:B.
        apply (FIN o [] [] l J (or_introl (conj C S)) eq_refl T eq_refl); [|rewrite B; exact H].
        intros x tx r X XR ->. split.
        * intros y ty Y LY. apply ex_infix; auto.
        * intros EC. subst o. discriminate C.
    - destruct (comparison_facts _ _ CO) as (_ & P & S & A & _). rewrite S in H. cbn [assoc_eqb] in H.
      destruct (bubble op_chain e) as [spine [aop aargs]] eqn:B.
      apply (FIN op_chain [TOpr o] [] l chain_joins (or_intror eq_refl) (eq_sym P) T eq_refl); [|rewrite B; exact H].
      intros x tx r X XR ->. split.
      + intros y ty Y LY. apply (ex_chain y [TOpr o; x]); auto. constructor; auto.
      + intros _ args ty Y LY. apply chain_app; auto.
  Qed.

  Lemma prefix_sound f base op l (x : tr) rest : sound_expr f -> bare base op -> toks l ->
    match program l with
    | [] => PErr PIndexError
    | _ :: ts2' =>
      let '(op, ts3) := if head_is (program l) "*" then (op_set_map op, ts2') else (op, program l) in
      match ts3 with
      | [] => PErr PIndexError
      | _ :: ts3' =>
        let '(op, ts4) :=
          if head_is ts3 ":" then (op_set_assign op (o_prec assign_op) (o_assoc op), ts3') else (op, ts3) in
        pbind (@parse_expr V f (o_prec op + 1) ts4) (fun x ts5 => POk (TApp op [x]) ts5)
      end
    end = POk x rest ->
    exists u r, l = u ++ r /\ rest = program r /\ expr x (base ++ u) /\ (forall p, ~ rooted x p) /\ edges_stop x r.
  Proof.
    intros SE B T H.
    assert (FIN : forall ot o l2, prefix (base ++ ot) o -> toks l2 -> l = ot ++ l2 ->
      pbind (@parse_expr V f (o_prec o + 1) (program l2)) (fun x ts5 => POk (TApp o [x]) ts5) = POk x rest ->
      exists u r, l = u ++ r /\ rest = program r /\ expr x (base ++ u) /\ (forall p, ~ rooted x p) /\ edges_stop x r).
    { intros ot o l2 P T2 EL H2. bindok H2. injection H2 as <- <-.
      destruct (prefix_facts _ _ P) as (A & PR & C & NB).
      destruct (SE _ _ _ _ T2 E) as (u & s & r2 & -> & -> & X & AL & ED & ST & SM).
      assert (Q : (o_prec o + 1 =? -1) = false) by (apply Z.eqb_neq; lia). rewrite Q in SM. subst s.
      cbn [app] in *. exists (ot ++ u), r2. split; [rewrite EL, app_assoc; reflexivity|]. split; [reflexivity|].
      split; [rewrite app_assoc; apply ex_prefix; auto; intros p Rp; specialize (AL p Rp); lia|].
      split.
      - intros p (args & X1 & X2). injection X1 as <- _. lia.
      - intros p Ep. inversion Ep as [o' x' Y1 Y2|o' x' p' Y1 Y2 Y3|o' fr x' p' Y1 Y2]; subst; [exact ST|apply ED; exact Y3|lia]. }
    destruct (head_is (program l) "*") eqn:HS.
    - destruct (head_mark l "*" T eq_refl HS) as (l1 & ->). cbn [program map app] in H.
      change (map Some l1 ++ [None]) with (program l1) in H.
      inversion T as [|? ? _ T1]; subst.
      destruct (program l1) as [|k ts3'] eqn:P1; [destruct l1; discriminate P1|]. rewrite <- P1 in *.
      destruct (head_is (program l1) ":") eqn:HC.
      + destruct (head_mark l1 ":" T1 eq_refl HC) as (l2 & ->). inversion T1 as [|? ? _ T2]; subst.
        change (program (mark ":" :: l2)) with (Some (mark ":") :: program l2) in P1. injection P1 as <- <-.
        apply (FIN [mark "*"; mark ":"] (storing (mapping op) (o_assoc op)) l2); [apply prefix_both; exact B|exact T2|reflexivity|exact H].
      + apply (FIN [mark "*"] (mapping op) l1); auto. apply prefix_map. exact B.
    - destruct (program l) as [|k ts3'] eqn:P1; [destruct l; discriminate P1|]. cbv iota in H.
      destruct (head_is (k :: ts3') ":") eqn:HC; rewrite <- P1 in HC.
      + destruct (head_mark l ":" T eq_refl HC) as (l2 & ->). inversion T as [|? ? _ T2]; subst.
        change (program (mark ":" :: l2)) with (Some (mark ":") :: program l2) in P1. injection P1 as <- <-.
        apply (FIN [mark ":"] (storing op (o_assoc op)) l2); [apply prefix_store; exact B|exact T2|reflexivity|exact H].
      + rewrite <- P1 in H. apply (FIN [] op l); auto. rewrite app_nil_r. apply prefix_bare. exact B.
  Qed.

  Lemma interpolated_shape t (e : tr) : interpolated t e -> (exists k, e = TTok k) \/ (exists x, e = TApp op_paren [x]).
  Proof. intros H. inversion H; subst; eauto. Qed.

  Lemma items_one (e : tr) ts rest : items [e] ts rest -> closed e ts rest.
  Proof.
    intros H. inversion H as [|? ? te ts' ? C I]; subst. inversion I; subst. rewrite app_nil_r. exact C.
  Qed.

  Lemma command_in s c : command_of s = Some c -> In c cmd_table /\ c_text c = s.
  Proof.
    unfold command_of. intros H. apply find_some in H. destruct H as [I E]. apply str_eqb_eq in E. auto.
  Qed.

  Lemma parse_sound : forall f, sound_parse f /\ sound_statement f /\ sound_args f /\ sound_block f
    /\ sound_expr f /\ sound_infix f /\ sound_operand f /\ sound_until f.
  Proof.
    induction f as [|f (IHp & IHs & IHa & IHb & IHe & IHi & IHo & IHu)].
    { repeat split; repeat intro; discriminate. }
    split; [|split; [|split; [|split; [|split; [|split; [|split]]]]]].
    - (* parse *)
      intros l sts rest T H. rewrite parse_eq in H. destruct l as [|t l].
      + injection H as <- <-. exists [], []. repeat split; auto. constructor.
      + change (program (t :: l)) with (Some t :: program l) in H. cbv iota in H.
        change (Some t :: program l) with (program (t :: l)) in H.
        inversion T as [|? ? Tt Tl]; subst. destruct (str_eqb _ _) eqn:E.
        * apply str_eqb_eq in E. pose proof (symbol_tok t "}" Tt ltac:(cbn; auto 10) E) as ->.
          injection H as <- <-. exists [], (sym "}" :: l). repeat split; auto. constructor.
        * bindok H. bindok H. injection H as <- <-.
          destruct (IHs _ _ _ T E0) as (u & r1 & EQ & -> & ST). rewrite EQ in T. apply toks_app in T.
          destruct (IHp _ _ _ (proj2 T) E1) as (u2 & r2 & -> & -> & CO & EN).
          exists (u ++ u2), r2. split; [rewrite EQ, <- app_assoc; reflexivity|]. split; [reflexivity|].
          split; [constructor; auto|exact EN].
    - (* statement *)
      intros l st rest T H. rewrite parse_statement_eq in H. destruct l as [|t l]; [discriminate H|].
      inversion T as [|? ? Tt Tl]; subst. cbv zeta in H.
      assert (X : forall st rest, pbind (@parse_expr V f (-1) (program (t :: l))) (fun st ts0 =>
          match ts0 with
          | [] => PErr PIndexError
          | _ :: ts' => if head_is ts0 ";" then POk st ts' else POk st ts0
          end) = POk st rest -> exists u r, t :: l = u ++ r /\ rest = program r /\ statement st u r).
      { clear H st rest. intros st rest H. bindok H.
        destruct (expr_closed f IHe _ _ _ T E) as (u & r1 & EQ & -> & CL & _). rewrite EQ in T. apply toks_app in T.
        destruct (semi_ok _ _ _ _ (proj2 T) H) as (-> & s & r2 & -> & -> & S).
        exists (u ++ s), r2. split; [rewrite EQ, app_assoc; reflexivity|]. split; [reflexivity|]. constructor; auto. }
      change (program (t :: l)) with (Some t :: program l) in H. cbv iota in H.
      destruct (tkind_eqb (t_kind t) KCommand) eqn:K.
      + assert (K' : t_kind t = KCommand) by (destruct (t_kind t); try discriminate K; reflexivity).
        rewrite K' in H. destruct (command_of (t_text t)) as [c|] eqn:C; [|discriminate H].
        destruct (command_in _ _ C) as (I & CT). bindok H.
        destruct (IHa _ _ _ _ Tl E) as (u & r1 & -> & -> & AR). apply toks_app in Tl.
        destruct (semi_ok _ _ _ _ (proj2 Tl) H) as (-> & s & r2 & -> & -> & S).
        exists (t :: u ++ s), r2. split; [cbn [app]; rewrite app_assoc; reflexivity|]. split; [reflexivity|].
        assert (t = Tok KCommand (c_text c)) as -> by (destruct t; cbn in *; congruence).
        apply st_cmd; auto.
      + apply X. destruct (t_kind t); try discriminate K; exact H.
    - (* arguments *)
      intros ty l xs rest T H. rewrite parse_args_eq in H. destruct ty as [|a ty].
      { injection H as <- <-. exists [], l. repeat split. constructor. }
      cbv zeta in H. bindok H. bindok H. injection H as <- <-.
      assert (X : exists u r1, l = u ++ r1 /\ r = program r1 /\ argument a a0 u r1).
      { destruct a.
        - destruct (proj1 (names_sound f) _ _ _ T E) as (u & r1 & -> & -> & VX). exists u, r1. repeat split. constructor; auto.
        - destruct (expr_closed f IHe _ _ _ T E) as (u & r1 & EQ & -> & CL & _). exists u, r1. repeat split; auto. constructor; auto.
        - bindok E. injection E as <- <-. destruct (IHb _ _ _ T E1) as (u & r2 & -> & -> & B). exists u, r2. repeat split.
          constructor; auto.
        - destruct (head_is (program l) "EL") eqn:HE.
          + destruct (head_sym l "EL" T ltac:(cbn; auto 12) HE) as (l' & ->). inversion T as [|? ? _ Tl]; subst.
            change (program (sym "EL" :: l')) with (Some (sym "EL") :: program l') in E. cbv iota in E.
            bindok E. injection E as <- <-. destruct (IHb _ _ _ Tl E1) as (u & r2 & -> & -> & B).
            exists (sym "EL" :: u), r2. repeat split. constructor; auto.
          + assert (Y : a0 = TBlk [] /\ r = program l).
            { destruct (program l); [discriminate E|]. injection E as <- <-. auto. }
            destruct Y as [-> ->]. exists [], l. repeat split. constructor. apply head_not, HE. }
      destruct X as (u & r2 & -> & -> & AX). apply toks_app in T.
      destruct (IHa _ _ _ _ (proj2 T) E0) as (u2 & r3 & -> & -> & AS).
      exists (u ++ u2), r3. split; [apply app_assoc|]. split; [reflexivity|]. constructor; auto.
    - (* block *)
      intros l sts rest T H. rewrite parse_block_eq in H.
      assert (H' : (if head_is (program l) "{"
        then pbind (@parse V f (tl (program l))) (fun sts ts2 =>
             match ts2 with
             | [] => PErr PIndexError
             | None :: _ => PErr IncompleteSyntax
             | Some _ :: ts3 => if head_is ts2 "}" then POk sts ts3 else PErr BadSyntax
             end)
        else pbind (parse_statement f (program l)) (fun st ts2 => POk [st] ts2)) = POk sts rest).
      { destruct (program l); [discriminate H|exact H]. }
      clear H. destruct (head_is (program l) "{") eqn:HB.
      + destruct (head_sym l "{" T ltac:(cbn; auto 10) HB) as (l' & ->). inversion T as [|? ? _ Tl]; subst.
        change (tl (program (sym "{" :: l'))) with (program l') in H'. bindok H'.
        destruct (IHp _ _ _ Tl E) as (u & r2 & -> & -> & CO & EN).
        destruct EN as [->|EN]; [discriminate H'|]. destruct r2 as [|k r2]; [discriminate EN|]. injection EN as ->.
        cbn in H'. injection H' as <- <-. exists (sym "{" :: u ++ [sym "}"]), r2.
        split; [cbn [app]; rewrite <- app_assoc; reflexivity|]. split; [reflexivity|].
        constructor. eapply code_hd; [exact CO|reflexivity].
      + bindok H'. injection H' as <- <-. destruct (IHs _ _ _ T E) as (u & r2 & -> & -> & ST).
        exists u, r2. repeat split. constructor; [exact ST|].
        intros X. apply (head_not _ _ HB). destruct u; [discriminate X|exact X].
    - (* expr *)
      intros m l e rest T H. rewrite parse_expr_eq in H. bindok H. bindok H.
      destruct (IHo _ _ _ T E) as (u & r2 & -> & -> & X & XR & XE). apply toks_app in T.
      assert (AL0 : at_least m a) by (intros p Rp; destruct (XR p Rp)).
      destruct (IHi _ _ _ _ _ _ (proj2 T) X AL0 XE E0) as (u2 & r3 & -> & -> & X2 & AL & ED & ST).
      destruct T as [_ T]. apply toks_app in T. destruct T as [_ T]. destruct (m =? -1) eqn:M.
      + cbn [andb] in H. destruct (semi_ok _ _ _ _ T H) as (-> & s & r4 & -> & -> & S).
        exists (u ++ u2), s, r4. split; [rewrite <- app_assoc; reflexivity|]. repeat split; auto.
      + cbn [andb] in H. assert (Y : e = a0 /\ rest = program r3).
        { destruct (program r3); [discriminate H|]. injection H as <- <-. auto. }
        destruct Y as [-> ->]. exists (u ++ u2), [], r3. split; [rewrite <- app_assoc; reflexivity|].
        repeat split; auto.
    - (* infix *)
      intros m e te l e' rest T X AL ED H. rewrite parse_infix_eq in H.
      assert (DONE : stops m l -> POk e (program l) = POk e' rest ->
        exists u r, l = u ++ r /\ rest = program r /\ expr e' (te ++ u) /\ at_least m e' /\ edges_stop e' r /\ stops m r).
      { intros ST H'. injection H' as <- <-. exists [], l. rewrite app_nil_r. repeat split; auto. }
      destruct l as [|t l]; [apply DONE; [intros ? ? ? Q; discriminate Q|exact H]|].
      inversion T as [|? ? Tt Tl]; subst.
      change (program (t :: l)) with (Some t :: program l) in H. cbv iota in H.
      destruct (tkind_eqb (t_kind t) KOperator) eqn:K.
      2:{ apply DONE; [|destruct (t_kind t); try discriminate K; exact H].
          intros s o r Q. injection Q as -> _. discriminate K. }
      assert (K' : t_kind t = KOperator) by (destruct (t_kind t); try discriminate K; reflexivity).
      rewrite K' in H. destruct (infix_op t) as [o|] eqn:IO.
      2:{ apply DONE; [|exact H]. intros s o r Q B. injection Q as -> _.
          apply (infix_between (Tok KOperator s)) in B. congruence. }
      apply infix_between in IO.
      assert (AP : forall o' r, stops o' (t :: l) -> r = ahead_prec o l -> r < o').
      { intros o' r S ->. apply (S (t_text t) o l); auto. destruct t; cbn in *; congruence. }
      destruct (program l) as [|k ts'] eqn:PL; [destruct l; discriminate PL|]. cbv zeta in H.
      change (second_is (Some t :: k :: ts') ":") with (head_is (k :: ts') ":") in H. rewrite <- PL in H.
      destruct ((if head_is (program l) ":" then o_prec assign_op else o_prec o) <? m) eqn:LT.
      { apply Z.ltb_lt in LT. apply DONE; [|exact H].
        intros s o2 r Q B. injection Q as -> ->. cbn [t_text] in IO.
        assert (o2 = o).
        { apply (infix_between (Tok KOperator s)) in B. apply (infix_between (Tok KOperator s)) in IO. congruence. }
        subst o2. exact LT. }
      apply Z.ltb_ge in LT.
      assert (TT : t = Tok KOperator (t_text t)) by (destruct t; cbn in *; congruence).
      assert (EDP : forall p, edge e p -> ahead_prec o l <= o_prec p).
      { intros p Ep. specialize (AP _ _ (ED p Ep) eq_refl). lia. }
      destruct (head_is (program l) ":") eqn:HC.
      + destruct (head_mark l ":" Tl eq_refl HC) as (l2 & ->). inversion Tl as [|? ? _ T2]; subst.
        change (program (mark ":" :: l2)) with (Some (mark ":") :: program l2) in PL. injection PL as _ <-.
        destruct (infix_step_sound f m e te [t; mark ":"] (storing o (o_assoc assign_op)) l2 e' rest
                    IHo IHe IHi T2 X AL) as (u & r & -> & -> & R1 & R2 & R3 & R4).
        * intros p Ep. specialize (EDP p Ep). unfold ahead_prec in EDP. rewrite HC in EDP. exact EDP.
        * exact LT.
        * left. rewrite TT. apply infix_store. exact IO.
        * exact H.
        * exists (t :: mark ":" :: u), r. repeat split; auto.
      + assert (EDQ : forall p, edge e p -> o_prec o <= o_prec p).
        { intros p Ep. specialize (EDP p Ep). unfold ahead_prec in EDP. rewrite HC in EDP. exact EDP. }
        destruct (infix_step_sound f m e te [t] o l e' rest IHo IHe IHi Tl X AL EDQ LT)
          as (u & r & -> & -> & R1 & R2 & R3 & R4).
        * destruct (assoc_eqb (o_assoc o) AChain) eqn:AC.
          -- right. exists (t_text t). split; [congruence|]. split; [exact IO|apply assoc_eqb_eq, AC].
          -- left. rewrite TT. apply infix_plain; [exact IO|]. intros Q. rewrite Q in AC. discriminate AC.
        * exact H.
        * exists (t :: u), r. repeat split; auto.
    - (* operand *)
      intros l x rest T H. rewrite parse_operand_eq in H. destruct l as [|t l]; [discriminate H|].
      inversion T as [|? ? Tt Tl]; subst. cbv zeta in H.
      assert (U : forall base op l2 pre, bare base op -> toks l2 -> t :: l = pre ++ l2 -> base = pre ->
        match program l2 with
        | [] => PErr PIndexError
        | _ :: ts2' =>
          let '(op, ts3) := if head_is (program l2) "*" then (op_set_map op, ts2') else (op, program l2) in
          match ts3 with
          | [] => PErr PIndexError
          | _ :: ts3' =>
            let '(op, ts4) :=
              if head_is ts3 ":" then (op_set_assign op (o_prec assign_op) (o_assoc op), ts3') else (op, ts3) in
            pbind (@parse_expr V f (o_prec op + 1) ts4) (fun x ts5 => POk (TApp op [x]) ts5)
          end
        end = POk x rest ->
        exists u r, t :: l = u ++ r /\ rest = program r /\ expr x u /\ (forall p, ~ rooted x p) /\ edges_stop x r).
      { intros base op l2 pre B T2 EL -> H2.
        destruct (prefix_sound f pre op l2 x rest IHe B T2 H2) as (u & r & -> & -> & R1 & R2 & R3).
        exists (pre ++ u), r. split; [rewrite EL, app_assoc; reflexivity|]. auto. }
      assert (BR : forall o args (u r : list token), o_arity o = 1%nat -> bracket o -> t :: l = u ++ r ->
        expr (TApp o args) u ->
        exists u' r', t :: l = u' ++ r' /\ program r = program r' /\ expr (TApp o args) u'
          /\ (forall p, ~ rooted (TApp o args) p) /\ edges_stop (TApp o args) r').
      { intros o args u r A B EL X. exists u, r. split; [exact EL|]. split; [reflexivity|]. split; [exact X|]. split.
        - intros p (a & Q & Y). injection Q as -> _. lia.
        - intros p Ep. inversion Ep; subst; [contradiction|contradiction|lia]. }
      assert (Z : (if str_eqb (t_text t) (s_ "(")
         then pbind (@parse_until V f ")" (program l)) (fun es ts2 =>
              match es with
              | [] => POk (TTok (Tok KNil (s_ "()"))) ts2
              | [e] => POk (TApp op_paren [e]) ts2
              | _ => POk (TApp op_send es) ts2
              end)
         else if str_eqb (t_text t) (s_ "[")
         then pbind (@parse_until V f "]" (program l)) (fun es ts2 => POk (TApp op_enlist es) ts2)
         else if str_eqb (t_text t) (s_ "{")
         then pbind (@parse_block V f (program (t :: l))) (fun b ts2 => POk (TApp op_block [TBlk b]) ts2)
         else
          if str_eqb (t_text t) (s_ "$") || str_eqb (t_text t) (s_ "\$")
          then match program l with
               | [] => PErr PIndexError
               | None :: _ => PErr IncompleteSyntax
               | Some t1 :: ts2 =>
                 match op_by_arity 2 (t_text t1) with
                 | Some op =>
                   match ts2 with
                   | [] => PErr PIndexError
                   | _ :: ts2' =>
                     let '(op, ts3) := if head_is ts2 "*" then
                       (op_set_map (if str_eqb (t_text t) (s_ "$") then op_set_fold op else op_set_scan op), ts2')
                       else (if str_eqb (t_text t) (s_ "$") then op_set_fold op else op_set_scan op, ts2) in
                     match ts3 with
                     | [] => PErr PIndexError
                     | _ :: ts3' =>
                       let '(op, ts4) :=
                         if head_is ts3 ":" then (op_set_assign op (o_prec assign_op) (o_assoc op), ts3') else (op, ts3) in
                       pbind (@parse_expr V f (o_prec op + 1) ts4) (fun x ts5 => POk (TApp op [x]) ts5)
                     end
                   end
                 | None => PErr BadSyntax
                 end
               end
          else match op_by_arity 1 (t_text t) with
               | Some op =>
                   match program l with
                   | [] => PErr PIndexError
                   | _ :: ts2' =>
                     let '(op, ts3) := if head_is (program l) "*" then (op_set_map op, ts2') else (op, program l) in
                     match ts3 with
                     | [] => PErr PIndexError
                     | _ :: ts3' =>
                       let '(op, ts4) :=
                         if head_is ts3 ":" then (op_set_assign op (o_prec assign_op) (o_assoc op), ts3') else (op, ts3) in
                       pbind (@parse_expr V f (o_prec op + 1) ts4) (fun x ts5 => POk (TApp op [x]) ts5)
                     end
                   end
               | None => PErr BadSyntax
               end) = POk x rest ->
        exists u r, t :: l = u ++ r /\ rest = program r /\ expr x u /\ (forall p, ~ rooted x p) /\ edges_stop x r).
      { clear H. intros H. destruct (str_eqb (t_text t) (s_ "(")) eqn:E1.
        { apply str_eqb_eq in E1. pose proof (symbol_tok t "(" Tt ltac:(cbn; auto 10) E1) as ->.
          bindok H. destruct (IHu ")" _ _ _ ltac:(cbn; auto 10) Tl E) as (u & r2 & -> & -> & IT).
          destruct a as [|e1 [|e2 es]]; injection H as <- <-.
          - inversion IT; subst. exists [sym "("; sym ")"], r2. repeat split; [constructor| |].
            + intros p (a & Q & _); discriminate Q.
            + intros p Ep; inversion Ep.
          - apply (BR op_paren [e1] (sym "(" :: u ++ [sym ")"]) r2); [reflexivity|left; reflexivity| |].
            + cbn [app]. rewrite <- app_assoc. reflexivity.
            + apply ex_paren, items_one, IT.
          - apply (BR op_send (e1 :: e2 :: es) (sym "(" :: u ++ [sym ")"]) r2); [reflexivity|right; right; left; reflexivity| |].
            + cbn [app]. rewrite <- app_assoc. reflexivity.
            + apply ex_send, IT. }
        destruct (str_eqb (t_text t) (s_ "[")) eqn:E2.
        { apply str_eqb_eq in E2. pose proof (symbol_tok t "[" Tt ltac:(cbn; auto 10) E2) as ->.
          bindok H. destruct (IHu "]" _ _ _ ltac:(cbn; auto 10) Tl E) as (u & r2 & -> & -> & IT). injection H as <- <-.
          apply (BR op_enlist a (sym "[" :: u ++ [sym "]"]) r2); [reflexivity|right; left; reflexivity| |].
          + cbn [app]. rewrite <- app_assoc. reflexivity.
          + apply ex_list, IT. }
        destruct (str_eqb (t_text t) (s_ "{")) eqn:E3.
        { apply str_eqb_eq in E3. pose proof (symbol_tok t "{" Tt ltac:(cbn; auto 10) E3) as ->.
          bindok H. destruct (IHb _ _ _ T E) as (u & r2 & EQ & -> & BD). injection H as <- <-.
          inversion BD as [sts ts rest' CO|st ts rest' ST NB]; subst.
          - apply (BR op_block [TBlk a] (sym "{" :: ts ++ [sym "}"]) r2); [reflexivity|right; right; right; reflexivity|exact EQ|].
            apply ex_block, CO.
          - exfalso. apply NB. destruct u as [|k u]; [|injection EQ as <- _; reflexivity].
            inversion ST as [e0 ts0 s0 rest0 CL SM|]; subst.
            match goal with X : _ ++ _ = [] |- _ => apply app_eq_nil in X; destruct X as [-> ->] end.
            inversion CL as [e1 ts1 s1 rest1 EX S1 NA]; subst.
            match goal with X : _ ++ _ = [] |- _ => apply app_eq_nil in X; destruct X as [-> ->] end.
            destruct (expr_starts _ _ EX) as (k & q & Q & _). discriminate Q. }
        destruct (str_eqb (t_text t) (s_ "$") || str_eqb (t_text t) (s_ "\$")) eqn:E4.
        { destruct l as [|t1 l1]; [discriminate H|]. inversion Tl as [|? ? Tt1 Tl1]; subst.
          change (program (t1 :: l1)) with (Some t1 :: program l1) in H. cbv iota in H.
          destruct (op_by_arity 2 (t_text t1)) as [op|] eqn:O2; [|discriminate H].
          destruct (in_table _ _ _ O2) as (IN & TX & _).
          pose proof (operator_tok t1 op Tt1 IN (eq_sym TX)) as E5. rewrite TX in E5.
          destruct (str_eqb (t_text t) (s_ "$")) eqn:E6.
          - apply str_eqb_eq in E6. pose proof (symbol_tok t "$" Tt ltac:(cbn; auto 10) E6) as ->.
            apply (U [sym "$"; t1] (folding op) l1 [sym "$"; t1]); auto. rewrite E5. apply bare_fold. exact O2.
          - cbn [orb] in E4. apply str_eqb_eq in E4. pose proof (symbol_tok t "\$" Tt ltac:(cbn; auto 12) E4) as ->.
            apply (U [sym "\$"; t1] (scanning op) l1 [sym "\$"; t1]); auto. rewrite E5. apply bare_scan. exact O2. }
        destruct (op_by_arity 1 (t_text t)) as [op|] eqn:O1; [|discriminate H].
        destruct (in_table _ _ _ O1) as (IN & TX & _).
        pose proof (operator_tok t op Tt IN (eq_sym TX)) as E5. rewrite TX in E5.
        apply (U [t] op l [t]); auto. rewrite E5. apply bare_unary. exact O1. }
      change (program (t :: l)) with (Some t :: program l) in H. cbv iota in H.
      destruct (t_kind t) eqn:K; try (apply Z; exact H);
        try (apply (atom_sound t l x rest); [rewrite K; discriminate|rewrite K; cbn; auto 10|exact H]).
      + (* texts *)
        injection H as <- <-. unfold token_text in Tt. rewrite K in Tt. destruct Tt as (b & TB & _).
        assert (TE : t = escaped b).
        { transitivity (Tok (t_kind t) (t_text t)); [destruct t; reflexivity|]. rewrite K, TB. reflexivity. }
        exists [t], l. split; [reflexivity|]. split; [reflexivity|].
        assert (IP : interpolated t (@parse_escaped V t)) by (rewrite TE; apply escaped_interpolated; reflexivity).
        split; [apply ex_text; exact IP|]. split.
        * intros p (a & Q & Y). destruct (interpolated_shape _ _ IP) as [(k & E)|(y & E)]; rewrite E in Q; [discriminate Q|].
          injection Q as <- _. cbn in Y. lia.
        * intros p Ep. destruct (interpolated_shape _ _ IP) as [(k & E)|(y & E)]; rewrite E in Ep; inversion Ep; subst;
            try (cbn in *; lia); match goal with N : ~ bracket op_paren |- _ => destruct N; left; reflexivity end.
      + (* no such token *)
        unfold token_text in Tt. rewrite K in Tt. destruct Tt.
    - (* until *)
      intros c l es rest IC T H. rewrite parse_until_eq in H. destruct l as [|t l]; [discriminate H|].
      change (program (t :: l)) with (Some t :: program l) in H. cbv iota in H.
      change (Some t :: program l) with (program (t :: l)) in H.
      destruct (head_is (program (t :: l)) c) eqn:HC.
      + destruct (head_sym _ _ T IC HC) as (l' & EQ). injection EQ as -> ->. injection H as <- <-.
        exists [], l'. repeat split. constructor.
      + bindok H. bindok H. injection H as <- <-.
        destruct (expr_closed f IHe _ _ _ T E) as (u & r1 & EQ & -> & CL & _). rewrite EQ in T. apply toks_app in T.
        destruct (IHu _ _ _ _ IC (proj2 T) E0) as (u2 & r2 & -> & -> & IT).
        exists (u ++ u2), r2. split; [rewrite EQ, <- app_assoc; reflexivity|]. split; [reflexivity|].
        constructor; [|exact IT]. eapply closed_hd; [exact CL|]. destruct u2; reflexivity.
  Qed.
End Sound.
