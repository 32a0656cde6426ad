(** * Comparison operators on nested Lists of Scalars *)

From Coq Require Import String List NArith ZArith Bool Arith Lia ZifyBool.
From Verif Require Import PyStr PyNum Tokens OpFun OpTable PTypes Ops Apply
                          StrFacts NumFacts NumCmp Spec SpecRun PFacts RunOp
                          NumProof NumProof2.
Import ListNotations.
Local Open Scope string_scope.
Local Open Scope list_scope.
Local Open Scope Z_scope.

Section Lists.
  Variable c : pval -> pval -> comparison.
  Fixpoint lcmp (l l' : list pval) : comparison :=
    match l, l' with
    | [], [] => Eq
    | [], _ => Lt
    | _, [] => Gt
    | x :: l1, y :: l2 => match c x y with Eq => lcmp l1 l2 | d => d end
    end.
End Lists.

Scheme alike_mut := Induction for alike Sort Prop
  with alikes_mut := Induction for alikes Sort Prop.
Combined Scheme alike_all from alike_mut, alikes_mut.

Lemma alike_sym a b : alike a b -> alike b a.
Proof.
  intros A. induction A using alike_mut with (P0 := fun l l' _ => alikes l' l);
    constructor; auto.
Qed.

Section Generic.
  Variable leaf : str -> str -> comparison.
  Hypothesis leaf_sym : forall s t, leaf t s = CompOpp (leaf s t).

  Fixpoint tcmp (a b : pval) : comparison :=
    match a, b with
    | PScal s, PScal t => leaf s t
    | PList l, PList l' => lcmp tcmp l l'
    | _, _ => Eq
    end.

  Lemma tcmp_sym a b : alike a b -> tcmp b a = CompOpp (tcmp a b).
  Proof.
    intros A. induction A as [s t|l l' L IH|l|l|x y l l' A IH L IHl] using alike_mut
      with (P0 := fun l l' _ => lcmp tcmp l' l = CompOpp (lcmp tcmp l l')).
    - apply leaf_sym.
    - exact IH.
    - destruct l; reflexivity.
    - destruct l; reflexivity.
    - cbn [lcmp]. rewrite IH, IHl. destruct (tcmp x y); reflexivity.
  Qed.

  (** What the three answers mean. *)
  Section Meaning.
    Variables lt eq : str -> str -> Prop.
    Hypothesis leaf_lt : forall s t, leaf s t = Lt <-> lt s t.
    Hypothesis leaf_eq : forall s t, leaf s t = Eq <-> eq s t.

    Lemma tcmp_means a b : alike a b ->
      (tcmp a b = Lt <-> before lt eq a b) /\ (tcmp a b = Eq <-> same_items eq a b).
    Proof.
      intros A. induction A as [s t|l l' L IH|l|l|x y l l' A IH L IHl] using alike_mut
        with (P0 := fun l l' _ =>
          (lcmp tcmp l l' = Lt <-> list_before lt eq l l')
          /\ (lcmp tcmp l l' = Eq <-> Forall2 (same_items eq) l l')).
      - cbn [tcmp]. rewrite leaf_lt, leaf_eq. split; split; intros H;
          first [constructor; exact H | inversion H; assumption].
      - cbn [tcmp]. destruct IH as [-> ->]. split; split; intros H;
          first [constructor; exact H | inversion H; assumption].
      - destruct l; cbn [lcmp]; split; split; intros H;
          first [discriminate | reflexivity | constructor | inversion H].
      - destruct l; cbn [lcmp]; split; split; intros H;
          first [discriminate | reflexivity | constructor | inversion H].
      - cbn [lcmp]. destruct IH as [IL IE], IHl as [LL LE]. split; split; intros H.
        + destruct (tcmp x y); try discriminate.
          * apply before_later; [apply IE; reflexivity | apply LL, H].
          * apply before_here, IL. reflexivity.
        + inversion H; subst.
          * rewrite (proj2 IL) by assumption. reflexivity.
          * rewrite (proj2 IE) by assumption. apply LL. assumption.
        + destruct (tcmp x y); try discriminate.
          constructor; [apply IE; reflexivity | apply LE, H].
        + inversion H; subst. rewrite (proj2 IE) by assumption. apply LE. assumption.
    Qed.
  End Meaning.

  Lemma lcmp_len l l' : lcmp tcmp l l' = Eq -> zlen l = zlen l'.
  Proof.
    revert l'. induction l as [|x l IH]; intros [|y l'] H; cbn [lcmp] in H;
      try discriminate; [reflexivity|].
    destruct (tcmp x y); try discriminate. apply IH in H.
    unfold zlen in *. cbn [length]. lia.
  Qed.

  (** [<] and [<=], given by their equations. *)
  Section Less.
    Variable less : nat -> pval -> pval -> bool.
    Hypothesis less_scal : forall f s t, less (S f) (PScal s) (PScal t) = lt_of (leaf s t).
    Hypothesis less_list : forall f l l',
      less (S f) (PList l) (PList l')
      = match first_decision (less f) l l' with Some r => r | None => zlen l <? zlen l' end.

    Lemma decide_with f l l' (last : Z -> Z -> bool) (want : comparison -> bool) :
      (forall x y, alike x y -> In x l -> In y l' ->
         less f x y = lt_of (tcmp x y) /\ less f y x = lt_of (tcmp y x)) ->
      (forall m n, last m n = want (m ?= n)) -> want Lt = true -> want Gt = false ->
      alikes l l' ->
      match first_decision (less f) l l' with Some r => r | None => last (zlen l) (zlen l') end
      = want (lcmp tcmp l l').
    Proof.
      intros Le La W1 W2 A. induction A as [l|l|x y l l' A Al IH].
      - cbn [first_decision]. rewrite La. destruct l; reflexivity.
      - assert (E : first_decision (less f) l [] = None) by (destruct l; reflexivity).
        rewrite E, La. destruct l; reflexivity.
      - cbn [first_decision lcmp].
        destruct (Le x y A (or_introl eq_refl) (or_introl eq_refl)) as [-> ->].
        rewrite (tcmp_sym x y A). destruct (tcmp x y); cbn [lt_of CompOpp].
        + replace (last (zlen (x :: l)) (zlen (y :: l'))) with (last (zlen l) (zlen l')).
          * apply IH. intros u v Auv I J. apply Le; cbn [In]; tauto.
          * rewrite !La. unfold zlen. cbn [length]. rewrite !Nat2Z.inj_compare.
            reflexivity.
        + symmetry. exact W1.
        + symmetry. exact W2.
    Qed.

    Lemma less_tcmp f : forall a b, alike a b -> (pdepth a + pdepth b < f)%nat ->
      less f a b = lt_of (tcmp a b).
    Proof.
      induction f as [|f IH]; intros a b A D; [lia|].
      destruct A as [s t|l l' L]; [apply less_scal|].
      rewrite less_list. cbn [tcmp]. apply decide_with; try reflexivity.
      - intros x y A I J. pose proof (list_depth _ _ I). pose proof (list_depth _ _ J).
        split; apply IH; solve [exact A | exact (alike_sym _ _ A) | lia].
      - exact L.
    Qed.

    Lemma lesseq_tcmp f l l' : alikes l l' ->
      (pdepth (PList l) + pdepth (PList l') < f)%nat ->
      match first_decision (less f) l l' with Some r => r | None => zlen l <=? zlen l' end
      = negb (gt_of (lcmp tcmp l l')).
    Proof.
      intros L D. apply (decide_with f l l' Z.leb (fun c => negb (gt_of c))).
      - intros x y A I J. pose proof (list_depth _ _ I). pose proof (list_depth _ _ J).
        split; apply less_tcmp; solve [exact A | exact (alike_sym _ _ A) | lia].
      - intros m n. unfold Z.leb. destruct (m ?= n); reflexivity.
      - reflexivity.
      - reflexivity.
      - exact L.
    Qed.
  End Less.

  (** [=] and [!=], given by their equations. *)
  Section Equal.
    Variable equal : nat -> pval -> pval -> bool.
    Hypothesis equal_scal : forall f s t, equal (S f) (PScal s) (PScal t) = eq_of (leaf s t).
    Hypothesis equal_list : forall f l l',
      equal (S f) (PList l) (PList l')
      = (zlen l =? zlen l') && all_pairs (equal f) l l'.

    Lemma equal_tcmp f : forall a b, alike a b -> (pdepth a + pdepth b < f)%nat ->
      equal f a b = eq_of (tcmp a b).
    Proof.
      induction f as [|f IH]; intros a b A D; [lia|].
      destruct A as [s t|l l' L]; [apply equal_scal|].
      rewrite equal_list. cbn [tcmp].
      assert (P : forall x y, alike x y -> In x l -> In y l' ->
                  equal f x y = eq_of (tcmp x y)).
      { intros x y A I J. pose proof (list_depth _ _ I). pose proof (list_depth _ _ J).
        apply IH; [exact A | lia]. }
      clear IH D. induction L as [l|l|x y l l' A L IHl].
      - destruct l; reflexivity.
      - destruct l; reflexivity.
      - cbn [all_pairs lcmp]. rewrite (P x y A) by (left; reflexivity).
        replace (zlen (x :: l) =? zlen (y :: l')) with (zlen l =? zlen l')
          by (unfold zlen; cbn [length]; lia).
        destruct (tcmp x y); cbn [eq_of andb]; try apply andb_false_r.
        apply IHl. intros u v Auv I J. apply P; [exact Auv | right; exact I | right; exact J].
    Qed.

    Variable unequal : nat -> pval -> pval -> bool.
    Hypothesis unequal_scal : forall f s t,
      unequal (S f) (PScal s) (PScal t) = negb (eq_of (leaf s t)).
    Hypothesis unequal_list : forall f l l',
      unequal (S f) (PList l) (PList l')
      = negb (zlen l =? zlen l') || any_pairs (unequal f) l l'.

    Lemma unequal_tcmp f : forall a b, alike a b -> (pdepth a + pdepth b < f)%nat ->
      unequal f a b = negb (eq_of (tcmp a b)).
    Proof.
      induction f as [|f IH]; intros a b A D; [lia|].
      destruct A as [s t|l l' L]; [apply unequal_scal|].
      rewrite unequal_list. cbn [tcmp].
      assert (P : forall x y, alike x y -> In x l -> In y l' ->
                  unequal f x y = negb (eq_of (tcmp x y))).
      { intros x y A I J. pose proof (list_depth _ _ I). pose proof (list_depth _ _ J).
        apply IH; [exact A | lia]. }
      clear IH D. induction L as [l|l|x y l l' A L IHl].
      - destruct l; reflexivity.
      - destruct l; reflexivity.
      - cbn [any_pairs lcmp]. rewrite (P x y A) by (left; reflexivity).
        replace (zlen (x :: l) =? zlen (y :: l')) with (zlen l =? zlen l')
          by (unfold zlen; cbn [length]; lia).
        destruct (tcmp x y); cbn [eq_of negb orb]; try apply orb_true_r.
        apply IHl. intros u v Auv I J. apply P; [exact Auv | right; exact I | right; exact J].
    Qed.
  End Equal.
End Generic.

(** ** String comparison *)

Lemma str_sym s t : str_compare t s = CompOpp (str_compare s t).
Proof. apply str_compare_antisym. Qed.

Lemma str_eqb_compare s t : str_eqb s t = eq_of (str_compare s t).
Proof.
  destruct (str_eqb s t) eqn:E.
  - apply str_eqb_eq, str_compare_eq in E. rewrite E. reflexivity.
  - destruct (str_compare s t) eqn:C; try reflexivity.
    apply str_compare_eq in C. subst. rewrite str_eqb_refl in E. discriminate.
Qed.

Lemma greater_less f : forall x y, str_greater f x y = str_less f y x.
Proof.
  induction f as [|f IH]; intros x y; [reflexivity|].
  destruct x, y; cbn [str_greater str_less]; try reflexivity.
  - unfold str_ltb. match goal with |- match str_compare ?a ?b with _ => _ end = _ =>
      rewrite (str_sym a b); destruct (str_compare a b); reflexivity end.
  - rewrite (first_decision_dual _ _ IH). rewrite Z.gtb_ltb. reflexivity.
Qed.

Lemma same_equal a b : same_items eq a b -> a = b.
Proof.
  revert b. induction a as [s| |l IH| | |] using pval_list_ind; intros b E;
    inversion E as [s' t Es|l1 l2 El]; subst; try reflexivity.
  f_equal. clear E. revert l2 El. induction IH as [|x l Hx _ IHl]; intros l2 El;
    inversion El; subst; [reflexivity|].
  f_equal; auto.
Qed.

Lemma equal_same a b : alike a b -> a = b -> same_items eq a b.
Proof.
  intros A. induction A as [s t|l l' L IH|l|l|x y l l' A IH L IHl] using alike_mut
    with (P0 := fun l l' _ => l = l' -> Forall2 (same_items eq) l l'); intros E.
  - injection E as ->. constructor. reflexivity.
  - injection E as E. constructor. auto.
  - subst. constructor.
  - subst. constructor.
  - injection E as -> ->. constructor; auto.
Qed.

Lemma alike_plain a b : alike a b -> not_block a = true /\ not_block b = true.
Proof. intros []; split; reflexivity. Qed.

Lemma fuel_sym a b : cmp_fuel a b = cmp_fuel b a.
Proof. unfold cmp_fuel. lia. Qed.

Lemma gt_sym c : lt_of (CompOpp c) = gt_of c.
Proof. destruct c; reflexivity. Qed.

Lemma order_means leaf (lt eq : str -> str -> Prop) a b :
  (forall s t, leaf t s = CompOpp (leaf s t)) ->
  (forall s t, leaf s t = Lt <-> lt s t) -> (forall s t, leaf s t = Eq <-> eq s t) ->
  alike a b ->
  (tcmp leaf a b = Lt <-> before lt eq a b)
  /\ (tcmp leaf a b = Eq <-> same_items eq a b)
  /\ (tcmp leaf a b = Gt <-> before lt eq b a).
Proof.
  intros S L E A. destruct (tcmp_means leaf lt eq L E a b A) as [M1 M2].
  split; [exact M1|]. split; [exact M2|].
  rewrite <- (proj1 (tcmp_means leaf lt eq L E b a (alike_sym _ _ A))).
  rewrite (tcmp_sym leaf S a b A). destruct (tcmp leaf a b); cbn; split; congruence.
Qed.

Lemma text_order fmt a b : alike a b -> exists c,
  answers fmt "LT" "Q" "GT" "LE" "GE" "NE" a b c
  /\ (c = Lt <-> before lex_lt eq a b)
  /\ (c = Eq <-> a = b)
  /\ (c = Gt <-> before lex_lt eq b a).
Proof.
  intros A. exists (tcmp str_compare a b).
  destruct (alike_plain a b A) as [Ha Hb].
  destruct (order_means str_compare lex_lt eq a b str_sym str_compare_lex str_compare_eq A)
    as (M1 & M2 & M3).
  assert (Hlt : forall f x y, alike x y -> (pdepth x + pdepth y < f)%nat ->
                str_less f x y = lt_of (tcmp str_compare x y)).
  { intros f. apply (less_tcmp _ str_sym); reflexivity. }
  assert (Hle : forall f l l', alikes l l' -> (pdepth (PList l) + pdepth (PList l') < f)%nat -> _)
    by (apply (lesseq_tcmp _ str_sym str_less); reflexivity).
  split; [|split; [exact M1|split; [|exact M3]]].
  - unfold answers.
    split; [|split; [|split; [|split; [|split]]]]; run_cmp a b Ha Hb.
    + unfold op_STRLESS. rewrite b2_truth, Hlt by (try exact A; unfold cmp_fuel; lia).
      reflexivity.
    + unfold op_STREQUAL. rewrite b2_truth, (equal_tcmp str_compare str_equal);
        [reflexivity| |reflexivity|exact A|unfold cmp_fuel; lia].
      intros f s t. apply str_eqb_compare.
    + unfold op_STRGREATER. rewrite b2_truth, greater_less.
      rewrite Hlt by (try exact (alike_sym _ _ A); unfold cmp_fuel; lia).
      rewrite (tcmp_sym _ str_sym a b A), gt_sym. reflexivity.
    + destruct A as [s t|l l' L]; unfold op_STRLESSEQ; rewrite b2_truth.
      * cbn [tcmp]. destruct (str_compare s t); reflexivity.
      * rewrite Hle by (try exact L; unfold cmp_fuel; lia). reflexivity.
    + assert (B := alike_sym _ _ A).
      destruct B as [s t|l l' L]; unfold op_STRGREATEREQ; rewrite b2_truth.
      * cbn [tcmp]. destruct (str_compare t s); reflexivity.
      * rewrite (first_decision_dual _ _ (greater_less _)), Z.geb_leb.
        rewrite Hle by (try exact L; unfold cmp_fuel; lia).
        assert (E := tcmp_sym _ str_sym _ _ A). cbn [tcmp] in E |- *. rewrite E.
        destruct (lcmp _ l' l); reflexivity.
    + unfold op_STRNOTEQUAL. rewrite b2_truth, (unequal_tcmp str_compare str_notequal);
        [reflexivity| |reflexivity|exact A|unfold cmp_fuel; lia].
      intros f s t. cbn [str_notequal]. f_equal. apply str_eqb_compare.
  - rewrite M2. split; [apply same_equal | apply (equal_same a b A)].
Qed.

(** ** Numeric comparison *)

Definition num_leaf (s t : str) : comparison :=
  match num_compare (to_number s) (to_number t) with Some c => c | None => Eq end.
Lemma num_leaf_some s t : num_compare (to_number s) (to_number t) = Some (num_leaf s t).
Proof.
  unfold num_leaf.
  destruct (num_compare_some (to_number s) (to_number t)
              (to_number_not_nan s) (to_number_not_nan t)) as [c ->]. reflexivity.
Qed.
Lemma num_leaf_sym s t : num_leaf t s = CompOpp (num_leaf s t).
Proof.
  unfold num_leaf at 1. rewrite num_compare_sym, num_leaf_some. reflexivity.
Qed.
Lemma num_leaf_compares fmt s t c : num_leaf s t = c <-> compares fmt s t c.
Proof.
  split.
  - intros <-. apply compares_compare, num_leaf_some.
  - intros C. assert (D := compares_compare fmt s t _ (num_leaf_some s t)).
    destruct C as (C1 & C2 & _), D as (D1 & D2 & _).
    rewrite D1 in C1. rewrite D2 in C2.
    destruct (num_leaf s t), c; cbn in C1, C2; congruence || discriminate.
Qed.

Lemma zip_list l n : zip_items n (PList l) = l.
Proof. reflexivity. Qed.

Lemma number_order fmt a b : alike a b -> exists c,
  answers fmt "<" "=" ">" "<=" ">=" "!=" a b c
  /\ run_op fmt "CM" [a; b]
     = ret (PScal match c with Lt => s_ "-1" | Eq => s_ "0" | Gt => s_ "1" end)
  /\ (c = Lt <-> before (fun s t => compares fmt s t Lt) (fun s t => compares fmt s t Eq) a b)
  /\ (c = Eq <-> same_items (fun s t => compares fmt s t Eq) a b)
  /\ (c = Gt <-> before (fun s t => compares fmt s t Lt) (fun s t => compares fmt s t Eq) b a).
Proof.
  intros A. exists (tcmp num_leaf a b).
  destruct (alike_plain a b A) as [Ha Hb].
  destruct (order_means num_leaf (fun s t => compares fmt s t Lt)
              (fun s t => compares fmt s t Eq) a b num_leaf_sym
              (fun s t => num_leaf_compares fmt s t Lt)
              (fun s t => num_leaf_compares fmt s t Eq) A) as (M1 & M2 & M3).
  assert (Hs : forall f s t, num_less (S f) (PScal s) (PScal t) = lt_of (num_leaf s t)).
  { intros f s t. cbn [num_less]. unfold num_ltb. rewrite num_leaf_some.
    destruct (num_leaf s t); reflexivity. }
  assert (Hlt : forall f x y, alike x y -> (pdepth x + pdepth y < f)%nat ->
                num_less f x y = lt_of (tcmp num_leaf x y)).
  { intros f. apply (less_tcmp _ num_leaf_sym); [exact Hs | reflexivity]. }
  assert (Hle : forall f l l', alikes l l' -> (pdepth (PList l) + pdepth (PList l') < f)%nat -> _)
    by (apply (lesseq_tcmp _ num_leaf_sym num_less); [exact Hs | reflexivity]).
  assert (Hgt : num_greater (cmp_fuel a b) a b = gt_of (tcmp num_leaf a b)).
  { rewrite <- less_greater.
    rewrite Hlt by (try exact (alike_sym _ _ A); unfold cmp_fuel; lia).
    rewrite (tcmp_sym _ num_leaf_sym a b A). apply gt_sym. }
  assert (Hlq : num_lesseq a b = negb (gt_of (tcmp num_leaf a b))
                /\ num_greatereq a b = negb (lt_of (tcmp num_leaf a b))).
  { assert (G : forall x y, alike x y ->
             num_lesseq x y = negb (gt_of (tcmp num_leaf x y))).
    { intros x y [s t|l l' L]; unfold num_lesseq.
      - cbn [tcmp]. unfold num_leb. rewrite num_leaf_some. destruct (num_leaf s t); reflexivity.
      - cbn [is_list_or_range andb]. rewrite !zip_list.
        apply Hle; [exact L | unfold cmp_fuel; lia]. }
    split; [apply G, A|]. rewrite <- lesseq_greatereq, (G _ _ (alike_sym _ _ A)).
    rewrite (tcmp_sym _ num_leaf_sym a b A). destruct (tcmp num_leaf a b); reflexivity. }
  destruct Hlq as [Hlq Hgq].
  assert (Heq : num_equal (cmp_fuel a b) a b = eq_of (tcmp num_leaf a b)).
  { apply (equal_tcmp num_leaf num_equal);
        [ |reflexivity|exact A|unfold cmp_fuel; lia].
    intros f s t. cbn [num_equal]. unfold num_eqb. rewrite num_leaf_some.
    destruct (num_leaf s t); reflexivity. }
  assert (Hl := Hlt (cmp_fuel a b) a b A). specialize (Hl ltac:(unfold cmp_fuel; lia)).
  split; [|split; [|split; [exact M1|split; [exact M2|exact M3]]]].
  - unfold answers.
    split; [|split; [|split; [|split; [|split]]]]; run_cmp a b Ha Hb.
    + unfold op_NUMLESS. rewrite b2_truth, Hl. reflexivity.
    + unfold op_NUMEQUAL. rewrite b2_truth, Heq. reflexivity.
    + unfold op_NUMGREATER. rewrite b2_truth, Hgt. reflexivity.
    + unfold op_NUMLESSEQ. rewrite b2_truth, Hlq. reflexivity.
    + unfold op_NUMGREATEREQ. rewrite b2_truth, Hgq. reflexivity.
    + unfold op_NUMNOTEQUAL. rewrite b2_truth, notequal_equal by (unfold cmp_fuel; lia).
      rewrite Heq. reflexivity.
  - run_cmp a b Ha Hb. unfold op_NUMCMP. rewrite Hgt, Hl.
    destruct (tcmp num_leaf a b); reflexivity.
Qed.
