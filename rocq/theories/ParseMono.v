(** * More fuel does not change what the parser returns *)

From Coq Require Import String List NArith ZArith Bool Arith Lia.
From Verif Require Import PyStr Tokens OpFun OpTable Parse ParseEq.
Import ListNotations.

Section Mono.
  Context {V : Type}.
  Local Notation tr := (tree V).

  Definition upto {A} (x y : pres A) : Prop := x = PErr PFuel \/ x = y.

  Lemma upto_refl {A} (x : pres A) : upto x x.
  Proof. right. reflexivity. Qed.
  Lemma upto_bind {A B} (x y : pres A) (f g : A -> toklist -> pres B) :
    upto x y -> (forall a r, upto (f a r) (g a r)) -> upto (pbind x f) (pbind y g).
  Proof.
    intros [->| ->] H; [left; reflexivity|]. destruct y as [a r|e]; [apply H|right; reflexivity].
  Qed.

  Lemma names_mono : forall f,
    (forall ts, upto (@parse_name_list V f ts) (parse_name_list (S f) ts))
    /\ (forall ts, upto (@parse_names V f ts) (parse_names (S f) ts)).
  Proof.
    induction f as [|f (IH1 & IH2)]; [split; intros; left; reflexivity|]. split; intro ts.
    - change (upto (@parse_name_list V (S f) ts) (parse_name_list (S (S f)) ts)).
      cbn [parse_name_list].
      destruct ts as [|[t|] ts]; [apply upto_refl| |apply upto_refl].
      destruct (t_kind t); try apply upto_refl;
        (destruct (str_eqb _ _); [|apply upto_refl]; apply upto_bind; [apply IH2|intros; apply upto_refl]).
    - change (upto (@parse_names V (S f) ts) (parse_names (S (S f)) ts)).
      cbn [parse_names].
      destruct ts as [|t ts]; [apply upto_refl|]. destruct (head_is _ _); [apply upto_refl|].
      apply upto_bind; [apply IH1|intros; apply upto_bind; [apply IH2|intros; apply upto_refl]].
  Qed.

  Lemma parse_mono : forall f,
    (forall ts, upto (@parse V f ts) (parse (S f) ts))
    /\ (forall ts, upto (@parse_statement V f ts) (parse_statement (S f) ts))
    /\ (forall ty ts, upto (@parse_args V f ty ts) (parse_args (S f) ty ts))
    /\ (forall ts, upto (@parse_block V f ts) (parse_block (S f) ts))
    /\ (forall p ts, upto (@parse_expr V f p ts) (parse_expr (S f) p ts))
    /\ (forall p e ts, upto (@parse_infix V f p e ts) (parse_infix (S f) p e ts))
    /\ (forall ts, upto (@parse_operand V f ts) (parse_operand (S f) ts))
    /\ (forall c ts, upto (@parse_until V f c ts) (parse_until (S f) c ts)).
  Proof.
    induction f as [|f (IHp & IHs & IHa & IHb & IHe & IHi & IHo & IHu)];
      [repeat split; intros; left; reflexivity|].
    split; [|split; [|split; [|split; [|split; [|split; [|split]]]]]].
    - intro ts. rewrite (parse_eq (S f)), (parse_eq f). destruct ts as [|[t|] ts]; try apply upto_refl.
      destruct (str_eqb _ _); [apply upto_refl|].
      apply upto_bind; [apply IHs|intros; apply upto_bind; [apply IHp|intros; apply upto_refl]].
    - intro ts. rewrite (parse_statement_eq (S f)), (parse_statement_eq f). cbv zeta.
      destruct ts as [|[t|] ts]; try apply upto_refl.
      destruct (t_kind t); try (apply upto_bind; [apply IHe|intros; apply upto_refl]).
      destruct (command_of _); [|apply upto_refl]. apply upto_bind; [apply IHa|intros; apply upto_refl].
    - intros ty ts. rewrite (parse_args_eq (S f)), (parse_args_eq f). destruct ty as [|a ty]; [apply upto_refl|].
      cbv zeta. apply upto_bind.
      + destruct a; [apply names_mono|apply IHe|apply upto_bind; [apply IHb|intros; apply upto_refl]|].
        destruct ts as [|t ts]; [apply upto_refl|]. destruct (head_is _ _); [|apply upto_refl].
        apply upto_bind; [apply IHb|intros; apply upto_refl].
      + intros. apply upto_bind; [apply IHa|intros; apply upto_refl].
    - intros ts. rewrite (parse_block_eq (S f)), (parse_block_eq f). destruct ts as [|t ts]; [apply upto_refl|].
      destruct (head_is _ _); apply upto_bind; auto; intros; apply upto_refl.
    - intros p ts. rewrite (parse_expr_eq (S f)), (parse_expr_eq f).
      apply upto_bind; [apply IHo|intros; apply upto_bind; [apply IHi|intros; apply upto_refl]].
    - intros p e ts. rewrite (parse_infix_eq (S f)), (parse_infix_eq f).
      destruct ts as [|[t|] ts]; try apply upto_refl.
      destruct (t_kind t); try apply upto_refl. destruct (infix_op t) as [op|]; [|apply upto_refl].
      destruct ts as [|t1 ts1]; [apply upto_refl|]. cbv zeta.
      destruct (_ <? p)%Z; [apply upto_refl|].
      assert (STEP : forall op' ts2, upto
        (let '(spine, (aop, aargs)) := bubble (if assoc_eqb (o_assoc op') AChain then op_chain else op') e in
         pbind (if assoc_eqb (o_assoc op') AChain then POk [TOpr op'] ts2
                else if (o_arity op' =? 3)%nat
                     then pbind (@parse_expr V f (-1) ts2) (fun m ts3 => POk [m] ts3)
                     else POk [] ts2) (fun mid ts3 =>
         pbind (parse_operand f ts3) (fun x ts4 =>
         parse_infix f p (rebuild spine (TApp aop (aargs ++ mid ++ [x]))) ts4)))
        (let '(spine, (aop, aargs)) := bubble (if assoc_eqb (o_assoc op') AChain then op_chain else op') e in
         pbind (if assoc_eqb (o_assoc op') AChain then POk [TOpr op'] ts2
                else if (o_arity op' =? 3)%nat
                     then pbind (@parse_expr V (S f) (-1) ts2) (fun m ts3 => POk [m] ts3)
                     else POk [] ts2) (fun mid ts3 =>
         pbind (parse_operand (S f) ts3) (fun x ts4 =>
         parse_infix (S f) p (rebuild spine (TApp aop (aargs ++ mid ++ [x]))) ts4)))).
      { intros op' ts2. destruct (bubble _ e) as [spine [aop aargs]]. apply upto_bind.
        - destruct (assoc_eqb _ _); [apply upto_refl|]. destruct (_ =? 3)%nat; [|apply upto_refl].
          apply upto_bind; [apply IHe|intros; apply upto_refl].
        - intros. apply upto_bind; [apply IHo|intros; apply IHi]. }
      destruct (head_is (t1 :: ts1) ":"); apply STEP.
    - intros ts. rewrite (parse_operand_eq (S f)), (parse_operand_eq f). cbv zeta.
      destruct ts as [|[t|] ts]; try apply upto_refl.
      assert (U : forall op r, upto
        (match r with
         | [] => PErr PIndexError
         | _ :: ts2' =>
           let '(op, ts3) := if head_is r "*" then (op_set_map op, ts2') else (op, r) in
           match ts3 with
           | [] => PErr PIndexError
           | _ :: ts3' =>
             let '(op, ts4) :=
               if head_is ts3 ":" then (op_set_assign op (o_prec assign_op) (o_assoc op), ts3') else (op, ts3) in
             pbind (@parse_expr V f (o_prec op + 1) ts4) (fun x ts5 => POk (TApp op [x]) ts5)
           end
         end)
        (match r with
         | [] => PErr PIndexError
         | _ :: ts2' =>
           let '(op, ts3) := if head_is r "*" then (op_set_map op, ts2') else (op, r) in
           match ts3 with
           | [] => PErr PIndexError
           | _ :: ts3' =>
             let '(op, ts4) :=
               if head_is ts3 ":" then (op_set_assign op (o_prec assign_op) (o_assoc op), ts3') else (op, ts3) in
             pbind (@parse_expr V (S f) (o_prec op + 1) ts4) (fun x ts5 => POk (TApp op [x]) ts5)
           end
         end)).
      { intros op r. destruct r as [|t1 r]; [apply upto_refl|].
        destruct (head_is (t1 :: r) "*"); cbv iota beta;
          [destruct r as [|t2 r]; [apply upto_refl|]|];
          destruct (head_is _ ":"); (apply upto_bind; [apply IHe|intros; apply upto_refl]). }
      destruct (t_kind t); try apply upto_refl;
        (destruct (str_eqb _ (s_ "(")); [apply upto_bind; [apply IHu|intros; apply upto_refl]|];
         destruct (str_eqb _ (s_ "[")); [apply upto_bind; [apply IHu|intros; apply upto_refl]|];
         destruct (str_eqb _ (s_ "{")); [apply upto_bind; [apply IHb|intros; apply upto_refl]|];
         destruct (_ || _);
         [destruct ts as [|[t1|] ts]; try apply upto_refl;
          destruct (op_by_arity 2 _); [apply U|apply upto_refl]
         |destruct (op_by_arity 1 _); [apply U|apply upto_refl]]).
    - intros c ts. rewrite (parse_until_eq (S f)), (parse_until_eq f).
      destruct ts as [|[t|] ts]; try apply upto_refl. destruct (head_is _ _); [apply upto_refl|].
      apply upto_bind; [apply IHe|intros; apply upto_bind; [apply IHu|intros; apply upto_refl]].
  Qed.

  (** [g] returns [r] with enough fuel. *)
  Definition ev {A} (g : nat -> pres A) (r : pres A) : Prop :=
    exists n, forall f, (n <= f)%nat -> g f = r.

  Lemma ev_const {A} (r : pres A) : ev (fun _ => r) r.
  Proof. exists 0%nat. reflexivity. Qed.
  Lemma ev_ext {A} (g h : nat -> pres A) r : (forall f, g f = h f) -> ev h r -> ev g r.
  Proof. intros E (n & H). exists n. intros f L. rewrite E. auto. Qed.
  Lemma ev_succ {A} (g h : nat -> pres A) r : (forall f, g (S f) = h f) -> ev h r -> ev g r.
  Proof.
    intros E (n & H). exists (S n). intros [|f] L; [lia|]. rewrite E. apply H. lia.
  Qed.
  Lemma ev_bind {A B} (x : nat -> pres A) a r (k : nat -> A -> toklist -> pres B) z :
    ev x (POk a r) -> ev (fun f => k f a r) z -> ev (fun f => pbind (x f) (k f)) z.
  Proof.
    intros (n & H) (m & K). exists (n + m)%nat. intros f L. rewrite H by lia. apply K. lia.
  Qed.

  Lemma parse_steady f ts r : @parse V f ts = r -> r <> PErr PFuel ->
    forall g, (f <= g)%nat -> parse g ts = r.
  Proof.
    intros E N g L. induction L as [|g L IH]; [exact E|].
    destruct (proj1 (parse_mono g) ts) as [X|X]; congruence.
  Qed.
End Mono.
