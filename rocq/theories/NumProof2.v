(** * Proofs for the comparison and truth properties *)

From Coq Require Import String List NArith ZArith Bool Arith Lia ZifyBool.
From Verif Require Import PyStr PyRe PyNum Tokens OpFun OpTable Unparse PTypes
                          Ops OpsSeq Apply ReFacts ReLang StrFacts NumFacts NumCmp
                          Spec SpecRun PFacts RunOp NumProof.
Import ListNotations.
Local Open Scope string_scope.
Local Open Scope list_scope.
Local Open Scope Z_scope.

Lemma b2_truth : forall b, b2 b = ret (truth b).
Proof. intros []; reflexivity. Qed.

(** ** C08: comparison of Scalars *)

Lemma compares_compare : forall fmt s t c,
  num_compare (to_number s) (to_number t) = Some c -> compares fmt s t c.
Proof.
  intros fmt s t c H. unfold compares.
  repeat split; run_plain;
    unfold op_NUMLESS, op_NUMEQUAL, op_NUMGREATER, op_NUMLESSEQ, op_NUMGREATEREQ,
      op_NUMNOTEQUAL, op_NUMCMP, cmp_fuel;
    cbn [pdepth num_less num_equal num_greater num_lesseq num_greatereq
         num_notequal Nat.add];
    unfold num_ltb, num_eqb, num_gtb, num_leb, num_geb; rewrite H;
    rewrite ?b2_truth; destruct c; reflexivity.
Qed.

Lemma compares_exists : forall fmt s t, exists c, compares fmt s t c
  /\ compares fmt t s (CompOpp c).
Proof.
  intros fmt s t.
  destruct (num_compare_some (to_number s) (to_number t)
              (to_number_not_nan s) (to_number_not_nan t)) as [c H].
  exists c. split; apply compares_compare; [exact H|].
  rewrite num_compare_sym, H. reflexivity.
Qed.

Lemma compares_integers : forall fmt na a nb b, decimal a -> decimal b ->
  compares fmt (numeral na a) (numeral nb b)
      (Z.compare (numeral_value na a) (numeral_value nb b)).
Proof.
  intros. apply compares_compare. rewrite !to_number_numeral by assumption.
  apply num_compare_NI.
Qed.

Lemma match_re_none : forall r s, (forall t, ~ lang r s t) -> match_re r s = None.
Proof.
  intros r s H. destruct (match_re r s) as [t|] eqn:E; [|reflexivity].
  unfold match_re in E. apply rmatch_sound in E. destruct E as (u & Hu & _).
  destruct (H u Hu).
Qed.

Lemma not_a_number_zero : forall s, not_a_number s -> to_number s = NI 0.
Proof.
  intros s (bl & rest & -> & Hb & Hr). unfold to_number. cbv zeta.
  unfold lstrip. rewrite drop_while_app by exact Hb.
  destruct rest as [|c rest]; [reflexivity|].
  destruct Hr as (Hs & Hd & Hm & Hp).
  rewrite drop_while_stop by exact Hs.
  assert (E1 : N.eqb c_minus c = false).
  { apply N.eqb_neq. intro E. apply Hm. symmetry. exact E. }
  assert (E2 : N.eqb c_dot c = false).
  { apply N.eqb_neq. intro E. apply Hp. symmetry. exact E. }
  replace (match_re py_float_re (c :: rest)) with (@None str).
  replace (match_re int_re (c :: rest)) with (@None str).
  - reflexivity.
  - symmetry. unfold match_re, int_re, RPlus, RChar, RDigit. cbn [rmatch].
    rewrite E1, Hd. reflexivity.
  - symmetry. unfold match_re, py_float_re, RPlus, RAlts, RChar, RDigit. cbn [rmatch].
    rewrite E1, E2, Hd. reflexivity.
Qed.

Lemma compares_not_a_number : forall fmt s t c, not_a_number s ->
  compares fmt (s_ "0") t c -> compares fmt s t c /\ compares fmt t s (CompOpp c).
Proof.
  intros fmt s t c Hs H0.
  destruct (num_compare_some (to_number s) (to_number t)
              (to_number_not_nan s) (to_number_not_nan t)) as [c' H].
  assert (compares fmt (s_ "0") t c').
  { apply compares_compare. rewrite (not_a_number_zero s Hs) in H. exact H. }
  assert (c' = c).
  { destruct H0 as (L & E & _), H1 as (L' & E' & _).
    rewrite L in L'. rewrite E in E'. destruct c, c'; try reflexivity; discriminate. }
  subst c'. split; apply compares_compare; [exact H|].
  rewrite num_compare_sym, H. reflexivity.
Qed.

Lemma compares_unfold : forall fmt s t c,
  num_compare (to_number s) (to_number t) = Some c ->
  (holds fmt "<" (PScal s) (PScal t) <-> c = Lt)
  /\ (holds fmt "=" (PScal s) (PScal t) <-> c = Eq)
  /\ (holds fmt "<=" (PScal s) (PScal t) <-> c <> Gt).
Proof.
  intros fmt s t c H. destruct (compares_compare fmt s t c H) as (L & E & _ & LE & _).
  unfold holds. rewrite L, E, LE.
  destruct c; repeat split; intro X; try reflexivity; try discriminate; congruence.
Qed.

Lemma less_trans : forall fmt s t u,
  holds fmt "<" (PScal s) (PScal t) -> holds fmt "<" (PScal t) (PScal u) ->
  holds fmt "<" (PScal s) (PScal u).
Proof.
  intros fmt s t u.
  destruct (num_compare_some _ _ (to_number_not_nan s) (to_number_not_nan t)) as [c1 H1].
  destruct (num_compare_some _ _ (to_number_not_nan t) (to_number_not_nan u)) as [c2 H2].
  destruct (num_compare_some _ _ (to_number_not_nan s) (to_number_not_nan u)) as [c3 H3].
  destruct (compares_unfold fmt s t c1 H1) as (E1 & _).
  destruct (compares_unfold fmt t u c2 H2) as (E2 & _).
  destruct (compares_unfold fmt s u c3 H3) as (E3 & _).
  rewrite E1, E2, E3. intros -> ->.
  assert (Hl : num_ltb (to_number s) (to_number u) = true).
  { eapply num_lt_le_trans with (b := to_number t).
    - unfold num_ltb. rewrite H1. reflexivity.
    - unfold num_leb. rewrite H2. reflexivity. }
  unfold num_ltb in Hl. rewrite H3 in Hl. destruct c3; congruence.
Qed.

Lemma lesseq_trans : forall fmt s t u,
  holds fmt "<=" (PScal s) (PScal t) -> holds fmt "<=" (PScal t) (PScal u) ->
  holds fmt "<=" (PScal s) (PScal u).
Proof.
  intros fmt s t u.
  destruct (num_compare_some _ _ (to_number_not_nan s) (to_number_not_nan t)) as [c1 H1].
  destruct (num_compare_some _ _ (to_number_not_nan t) (to_number_not_nan u)) as [c2 H2].
  destruct (num_compare_some _ _ (to_number_not_nan s) (to_number_not_nan u)) as [c3 H3].
  destruct (compares_unfold fmt s t c1 H1) as (_ & _ & E1).
  destruct (compares_unfold fmt t u c2 H2) as (_ & _ & E2).
  destruct (compares_unfold fmt s u c3 H3) as (_ & _ & E3).
  rewrite E1, E2, E3. intros X1 X2.
  assert (Hl : num_leb (to_number s) (to_number u) = true).
  { eapply num_le_trans with (b := to_number t).
    - unfold num_leb. rewrite H1. destruct c1; congruence.
    - unfold num_leb. rewrite H2. destruct c2; congruence. }
  unfold num_leb in Hl. rewrite H3 in Hl. destruct c3; congruence.
Qed.

(** ** C09: all values *)

Section TreeInd.
  Context {V : Type}.
  Variable P : V -> Prop.
  Variable Q : tree V -> Prop.
  Hypothesis HV : forall v, P v.
  Hypothesis Htok : forall t, Q (TTok t).
  Hypothesis Hval : forall v, P v -> Q (TVal v).
  Hypothesis Hopr : forall o, Q (TOpr o).
  Hypothesis Happ : forall o l, Forall Q l -> Q (TApp o l).
  Hypothesis Hblk : forall l, Forall Q l -> Q (TBlk l).
  Hypothesis Hcmd : forall c l, Forall Q l -> Q (TCmd c l).
  Fixpoint tree_full_ind (t : tree V) : Q t :=
    let go := fix go (l : list (tree V)) : Forall Q l :=
      match l with
      | [] => Forall_nil Q
      | x :: l' => Forall_cons x (tree_full_ind x) (go l')
      end in
    match t with
    | TTok t => Htok t
    | TVal v => Hval v (HV v)
    | TOpr o => Hopr o
    | TApp o l => Happ o l (go l)
    | TBlk l => Hblk l (go l)
    | TCmd c l => Hcmd c l (go l)
    end.
End TreeInd.

Section PvalFull.
  Variable P : pval -> Prop.
  Variable Q : tree pval -> Prop.
  Hypothesis Hscal : forall s, P (PScal s).
  Hypothesis Hpat : forall r f, P (PPat r f).
  Hypothesis Hlist : forall l, Forall P l -> P (PList l).
  Hypothesis Hrange : forall lo hi, P (PRange lo hi).
  Hypothesis Hblock : forall sts r, Forall Q sts -> Q r -> P (PBlock sts r).
  Hypothesis Hnil : P PNil.
  Hypothesis Htok : forall t, Q (TTok t).
  Hypothesis Hval : forall v, P v -> Q (TVal v).
  Hypothesis Hopr : forall o, Q (TOpr o).
  Hypothesis Happ : forall o l, Forall Q l -> Q (TApp o l).
  Hypothesis Hblk : forall l, Forall Q l -> Q (TBlk l).
  Hypothesis Hcmd : forall c l, Forall Q l -> Q (TCmd c l).
  Fixpoint pval_full_ind (v : pval) : P v :=
    match v with
    | PScal s => Hscal s
    | PPat r f => Hpat r f
    | PList l => Hlist l ((fix go (l : list pval) : Forall P l :=
                             match l with
                             | [] => Forall_nil P
                             | x :: l' => Forall_cons x (pval_full_ind x) (go l')
                             end) l)
    | PRange lo hi => Hrange lo hi
    | PBlock sts r =>
      let tr := tree_full_ind P Q pval_full_ind Htok Hval Hopr Happ Hblk Hcmd in
      Hblock sts r ((fix go (l : list (tree pval)) : Forall Q l :=
                       match l with
                       | [] => Forall_nil Q
                       | x :: l' => Forall_cons x (tr x) (go l')
                       end) sts) (tr r)
    | PNil => Hnil
    end.
End PvalFull.

Lemma optZ_eqb_sym : forall a b, optZ_eqb a b = optZ_eqb b a.
Proof. intros [a|] [b|]; simpl; try reflexivity. apply Z.eqb_sym. Qed.

Lemma p_eqb_sym : forall a b, p_eqb a b = p_eqb b a.
Proof.
  intro a. pattern a.
  apply pval_full_ind with (Q := fun t => forall u,
    tree_eqb p_eqb t u = tree_eqb p_eqb u t); clear a.
  - intros s [t| | | | |]; try reflexivity. apply str_eqb_sym.
  - intros r f [ |r' f'| | | |]; try reflexivity. simpl.
    rewrite str_eqb_sym, N.eqb_sym. reflexivity.
  - intros l IH [ | |l'| | |]; try reflexivity. simpl.
    revert l'. induction IH as [|x l Hx _ IHl]; intros [|y l']; try reflexivity.
    rewrite Hx. f_equal. apply IHl.
  - intros lo hi [ | | |lo' hi'| |]; try reflexivity. simpl.
    rewrite (optZ_eqb_sym lo), (optZ_eqb_sym hi). reflexivity.
  - intros sts r Hs Hr [ | | | |sts' r'|]; try reflexivity. simpl.
    f_equal; [|apply Hr].
    revert sts'. induction Hs as [|x l Hx _ IHl]; intros [|y l']; try reflexivity.
    rewrite Hx. f_equal. apply IHl.
  - intros [| | | | |]; reflexivity.
  - intros t [u|u|u|o l|l|c l]; try reflexivity; simpl; apply str_eqb_sym.
  - intros v Hv [u|u|u|o l|l|c l]; try reflexivity. simpl. apply Hv.
  - intros t [u|u|u|o l|l|c l]; try reflexivity; simpl; apply str_eqb_sym.
  - intros o l IH [u|u|u|o' l'|l'|c l']; try reflexivity. simpl.
    rewrite str_eqb_sym. f_equal.
    revert l'. induction IH as [|x l Hx _ IHl]; intros [|y l']; try reflexivity.
    rewrite Hx. f_equal. apply IHl.
  - intros l IH [u|u|u|o' l'|l'|c l']; try reflexivity. simpl.
    revert l'. induction IH as [|x l Hx _ IHl]; intros [|y l']; try reflexivity.
    rewrite Hx. f_equal. apply IHl.
  - intros o l IH [u|u|u|o' l'|l'|c l']; try reflexivity. simpl.
    rewrite str_eqb_sym. f_equal.
    revert l'. induction IH as [|x l Hx _ IHl]; intros [|y l']; try reflexivity.
    rewrite Hx. f_equal. apply IHl.
Qed.

Lemma first_decision_dual : forall (f g : pval -> pval -> bool),
  (forall x y, f x y = g y x) ->
  forall l1 l2, first_decision f l1 l2 = first_decision g l2 l1.
Proof.
  intros f g H. induction l1 as [|x l1 IH]; intros [|y l2]; try reflexivity.
  cbn [first_decision]. rewrite !H, IH. reflexivity.
Qed.

Lemma range_compare_sym : forall lo hi lo' hi',
  range_compare lo' hi' lo hi = CompOpp (range_compare lo hi lo' hi').
Proof.
  intros. unfold range_compare. rewrite (Z.compare_antisym (lower0 lo)).
  destruct (Z.compare (lower0 lo) (lower0 lo')); cbn [CompOpp]; try reflexivity.
  destruct hi, hi'; try reflexivity. apply Z.compare_antisym.
Qed.

(** The length decision, seen from both sides; two infinite Ranges aside. *)
Definition both_infinite (a b : pval) : bool := infinite a && infinite b.

Lemma len_pair_dual : forall a b,
  is_list_or_range a = true -> is_list_or_range b = true ->
  both_infinite a b = false ->
  match len_pair a b with
  | inl (m, n) => len_pair b a = inl (n, m)
  | inr x => len_pair b a = inr (negb x)
  end.
Proof.
  intros a b Ha Hb Hi. unfold len_pair.
  destruct a as [| |l|lo [u|]| |]; try discriminate;
    destruct b as [| |l'|lo' [u'|]| |]; try discriminate; try reflexivity;
    cbn [p_len]; try reflexivity.
Qed.

Lemma less_greater : forall fuel x y, num_less fuel x y = num_greater fuel y x.
Proof.
  induction fuel as [|f IH]; intros x y; [reflexivity|].
  assert (Hgen : both_infinite x y = false ->
    (if is_list_or_range x && is_list_or_range y
     then match first_decision (num_less f) (zip_items (size_hint y) x)
                               (zip_items (size_hint x) y) with
          | Some r => r
          | None => match len_pair x y with
                    | inl (m, n) => m <? n
                    | inr lhs_infinite => negb lhs_infinite
                    end
          end
     else false)
    = (if is_list_or_range y && is_list_or_range x
       then match first_decision (num_greater f) (zip_items (size_hint x) y)
                                 (zip_items (size_hint y) x) with
            | Some r => r
            | None => match len_pair y x with
                      | inl (m, n) => m >? n
                      | inr lhs_infinite => lhs_infinite
                      end
            end
       else false)).
  { intro Hi. rewrite andb_comm.
    destruct (is_list_or_range y) eqn:Hy; [|reflexivity].
    destruct (is_list_or_range x) eqn:Hx; [|reflexivity]. cbn [andb].
    rewrite (first_decision_dual _ _ IH).
    destruct (first_decision (num_greater f) _ _); [reflexivity|].
    pose proof (len_pair_dual x y Hx Hy Hi) as H.
    destruct (len_pair x y) as [[m n]|b]; rewrite H; [lia|reflexivity]. }
  destruct x as [s| |l|lo hi| |]; destruct y as [s'| |l'|lo' hi'| |];
    cbn [num_less num_greater]; try reflexivity;
    try (apply Hgen; unfold both_infinite, infinite; cbn [p_is_finite];
         rewrite ?andb_false_r; reflexivity).
  - unfold num_ltb, num_gtb. rewrite (num_compare_sym (to_number s')).
    destruct (num_compare (to_number s') (to_number s)) as [[]|]; reflexivity.
  - rewrite (range_compare_sym lo hi). destruct (range_compare lo hi lo' hi'); reflexivity.
Qed.

Lemma lesseq_greatereq : forall x y, num_lesseq x y = num_greatereq y x.
Proof.
  intros x y.
  assert (Hgen : both_infinite x y = false ->
    (if is_list_or_range x && is_list_or_range y
     then match first_decision (num_less (cmp_fuel x y)) (zip_items (size_hint y) x)
                               (zip_items (size_hint x) y) with
          | Some r => r
          | None => match len_pair x y with
                    | inl (m, n) => m <=? n
                    | inr lhs_infinite => negb lhs_infinite
                    end
          end
     else p_eqb x y)
    = (if is_list_or_range y && is_list_or_range x
       then match first_decision (num_greater (cmp_fuel y x))
                                 (zip_items (size_hint x) y)
                                 (zip_items (size_hint y) x) with
            | Some r => r
            | None => match len_pair y x with
                      | inl (m, n) => m >=? n
                      | inr lhs_infinite => lhs_infinite
                      end
            end
       else p_eqb y x)).
  { intro Hi. rewrite andb_comm, (p_eqb_sym x y).
    replace (cmp_fuel y x) with (cmp_fuel x y) by (unfold cmp_fuel; lia).
    destruct (is_list_or_range y) eqn:Hy; [|reflexivity].
    destruct (is_list_or_range x) eqn:Hx; [|reflexivity]. cbn [andb].
    rewrite (first_decision_dual _ _ (less_greater _)).
    destruct (first_decision (num_greater _) _ _); [reflexivity|].
    pose proof (len_pair_dual x y Hx Hy Hi) as H.
    destruct (len_pair x y) as [[m n]|b]; rewrite H; [lia|reflexivity]. }
  destruct x as [s| |l|lo hi| |]; destruct y as [s'| |l'|lo' hi'| |];
    unfold num_lesseq, num_greatereq;
    try (apply Hgen; unfold both_infinite, infinite; cbn [p_is_finite];
         rewrite ?andb_false_r; reflexivity).
  - unfold num_leb, num_geb. rewrite (num_compare_sym (to_number s')).
    destruct (num_compare (to_number s') (to_number s)) as [[]|]; reflexivity.
  - rewrite (range_compare_sym lo hi). destruct (range_compare lo hi lo' hi'); reflexivity.
Qed.

(** Fuel: the items of a List are less deep. *)
Lemma list_depth : forall l x, In x l -> (pdepth x < pdepth (PList l))%nat.
Proof.
  intros l x H. cbn [pdepth]. apply Nat.lt_succ_r.
  induction l as [|y l IH]; [contradiction|]. cbn [fold_right].
  destruct H as [->|H]; [lia|]. specialize (IH H). lia.
Qed.

Lemma zip_items_depth : forall n v x, is_list_or_range v = true ->
  In x (zip_items n v) -> (pdepth x < pdepth v)%nat.
Proof.
  intros n [| |l|lo [u|]| |] x Hv H; try discriminate; cbn [zip_items] in H.
  - apply list_depth, H.
  - apply in_map_iff in H. destruct H as (z & <- & _). simpl. lia.
  - apply in_map_iff in H. destruct H as (z & <- & _). simpl. lia.
Qed.

Lemma any_pairs_all : forall (p q : pval -> pval -> bool) l1 l2,
  (forall x y, In x l1 -> In y l2 -> p x y = negb (q x y)) ->
  any_pairs p l1 l2 = negb (all_pairs q l1 l2).
Proof.
  intros p q. induction l1 as [|x l1 IH]; intros [|y l2] H; try reflexivity.
  cbn [any_pairs all_pairs]. rewrite H by (left; reflexivity).
  rewrite IH by (intros; apply H; right; assumption).
  rewrite negb_andb. reflexivity.
Qed.

Lemma notequal_equal : forall fuel x y, (pdepth x + pdepth y < fuel)%nat ->
  num_notequal fuel x y = negb (num_equal fuel x y).
Proof.
  induction fuel as [|f IH]; intros x y Hf; [lia|].
  assert (Hgen :
    (if is_list_or_range x && is_list_or_range y
     then match len_pair x y with
          | inl (m, n) => negb (m =? n)
                          || any_pairs (num_notequal f)
                                       (zip_items (size_hint y) x)
                                       (zip_items (size_hint x) y)
          | inr _ => true
          end
     else negb (p_eqb x y))
    = negb (if is_list_or_range x && is_list_or_range y
      then match len_pair x y with
           | inl (m, n) => (m =? n)
                           && all_pairs (num_equal f)
                                        (zip_items (size_hint y) x)
                                        (zip_items (size_hint x) y)
           | inr _ => false
           end
      else p_eqb x y)).
  { destruct (is_list_or_range x) eqn:Hx; [|reflexivity].
    destruct (is_list_or_range y) eqn:Hy; [|reflexivity]. cbn [andb].
    destruct (len_pair x y) as [[m n]|b]; [|reflexivity].
    rewrite negb_andb. f_equal. apply any_pairs_all. intros i j Hi Hj.
    apply IH. apply zip_items_depth in Hi; [|exact Hx].
    apply zip_items_depth in Hj; [|exact Hy]. lia. }
  destruct x as [s| |l|lo hi| |]; destruct y as [s'| |l'|lo' hi'| |];
    cbn [num_notequal num_equal]; try reflexivity; apply Hgen.
Qed.

Ltac run_cmp x y Hx Hy :=
  run_plain;
  [ | destruct x; try discriminate Hx; destruct y; try discriminate Hy; reflexivity
    | destruct x, y; reflexivity ].

Lemma run_less_greater : forall fmt x y,
  not_block x = true -> not_block y = true ->
  exists b, run_op fmt "<" [x; y] = ret (truth b)
    /\ run_op fmt ">" [y; x] = ret (truth b).
Proof.
  intros fmt x y Hx Hy. exists (num_less (cmp_fuel x y) x y). split.
  - run_cmp x y Hx Hy. apply b2_truth.
  - run_cmp x y Hx Hy. unfold op_NUMGREATER. rewrite b2_truth, less_greater.
    replace (cmp_fuel y x) with (cmp_fuel x y) by (unfold cmp_fuel; lia).
    reflexivity.
Qed.

Lemma run_lesseq_greatereq : forall fmt x y,
  not_block x = true -> not_block y = true ->
  exists b, run_op fmt "<=" [x; y] = ret (truth b)
    /\ run_op fmt ">=" [y; x] = ret (truth b).
Proof.
  intros fmt x y Hx Hy. exists (num_lesseq x y). split.
  - run_cmp x y Hx Hy. apply b2_truth.
  - run_cmp x y Hx Hy. unfold op_NUMGREATEREQ. rewrite b2_truth, lesseq_greatereq.
    reflexivity.
Qed.

Lemma run_equal_notequal : forall fmt x y,
  not_block x = true -> not_block y = true ->
  exists b, run_op fmt "=" [x; y] = ret (truth b)
    /\ run_op fmt "!=" [x; y] = ret (truth (negb b)).
Proof.
  intros fmt x y Hx Hy. exists (num_equal (cmp_fuel x y) x y). split.
  - run_cmp x y Hx Hy. apply b2_truth.
  - run_cmp x y Hx Hy. unfold op_NUMNOTEQUAL.
    rewrite b2_truth, notequal_equal by (unfold cmp_fuel; lia). reflexivity.
Qed.

(** With a Block operand a comparison is not decided but becomes the body of a
    new function. *)
Lemma run_compare_block : forall fmt text x y,
  In text ["<"; ">"; "<="; ">="; "="; "!="] ->
  not_block x = false \/ not_block y = false ->
  exists sts r, run_op fmt text [x; y] = ret (PBlock sts r).
Proof.
  intros fmt text x y Ht Hb.
  assert (Hblk : existsb is_block [x; y] = true).
  { destruct Hb as [Hb|Hb]; [destruct x|destruct y]; try discriminate Hb; cbn;
      rewrite ?orb_true_r; reflexivity. }
  assert (Hop : exists o, op_by_arity 2 (s_ text) = Some o
                          /\ f_in_lambda (o_flags o) = true).
  { repeat (destruct Ht as [<-|Ht]; [eexists; split; [vm_compute; reflexivity|reflexivity]|]).
    destruct Ht. }
  destruct Hop as (o & Ho & Hl). unfold run_op. cbn [List.length]. rewrite Ho.
  unfold apply_op. cbn [apply_fuel]. rewrite Hl, Hblk. cbn [andb]. unfold lambda_of.
  eauto.
Qed.

(** ** C10: Ranges *)

Lemma range_equal_same : forall fmt a hi b hi',
  (forall z, range_elem (Some a) hi z <-> range_elem (Some b) hi' z) ->
  (exists z, range_elem (Some a) hi z) ->
  run_op fmt "=" [PRange (Some a) hi; PRange (Some b) hi'] = ret (truth true).
Proof.
  intros fmt a hi b hi' H [z Hz]. run_plain. unfold op_NUMEQUAL. rewrite b2_truth.
  unfold cmp_fuel. cbn [pdepth Nat.add num_equal p_eqb].
  assert (Ez : range_elem (Some a) hi a).
  { unfold range_elem, range_start in *. destruct hi; lia. }
  assert (Ez' : range_elem (Some b) hi' b).
  { apply H in Hz. unfold range_elem, range_start in *. destruct hi'; lia. }
  assert (a = b).
  { apply H in Ez. apply H in Ez'. unfold range_elem, range_start in *. lia. }
  subst b.
  assert (hi = hi').
  { destruct hi as [u|], hi' as [u'|].
    - pose proof (H (u - 1)) as H1. pose proof (H (u' - 1)) as H2.
      pose proof (H u) as H3. pose proof (H u') as H4.
      unfold range_elem, range_start in *. f_equal. lia.
    - specialize (H (Z.max u a)). unfold range_elem, range_start in *. lia.
    - specialize (H (Z.max u' a)). unfold range_elem, range_start in *. lia.
    - reflexivity. }
  subst hi'. cbn [optZ_eqb]. rewrite Z.eqb_refl.
  destruct hi; cbn [optZ_eqb]; rewrite ?Z.eqb_refl; reflexivity.
Qed.

Lemma range_trichotomy : forall fmt a hi b hi',
  exists c, run_op fmt "<" [PRange (Some a) hi; PRange (Some b) hi'] = ret (truth (lt_of c))
    /\ run_op fmt "=" [PRange (Some a) hi; PRange (Some b) hi'] = ret (truth (eq_of c))
    /\ run_op fmt ">" [PRange (Some a) hi; PRange (Some b) hi'] = ret (truth (gt_of c)).
Proof.
  intros fmt a hi b hi'. exists (range_compare (Some a) hi (Some b) hi').
  repeat split; run_plain; unfold op_NUMLESS, op_NUMEQUAL, op_NUMGREATER, cmp_fuel;
    rewrite b2_truth; cbn [pdepth Nat.add num_less num_equal num_greater p_eqb];
    try reflexivity.
  unfold range_compare. cbn [lower0 optZ_eqb].
  destruct (Z.compare_spec a b) as [->| |]; rewrite ?Z.eqb_refl.
  - destruct hi as [u|], hi' as [u'|]; cbn [optZ_eqb]; try reflexivity.
    destruct (Z.compare_spec u u') as [->| |]; rewrite ?Z.eqb_refl; try reflexivity;
      (replace (u =? u') with false by lia); reflexivity.
  - replace (a =? b) with false by lia. reflexivity.
  - replace (a =? b) with false by lia. reflexivity.
Qed.

(** ** C11: string comparison *)

Lemma str_compare_lex : forall s t, str_compare s t = Lt <-> lex_lt s t.
Proof.
  induction s as [|c s IH]; intros [|d t]; cbn [str_compare]; split; intro H;
    try discriminate; try (inversion H; fail).
  - constructor.
  - reflexivity.
  - destruct (N.compare_spec c d) as [->|Hl|Hg]; [|apply lex_here; exact Hl|discriminate].
    apply lex_later, IH, H.
  - inversion H; subst.
    + replace (c ?= d)%N with Lt by (symmetry; apply N.compare_lt_iff; assumption).
      reflexivity.
    + rewrite N.compare_refl. apply IH. assumption.
Qed.

Lemma string_compares : forall fmt s t,
  (exists c, run_op fmt "LT" [PScal s; PScal t] = ret (truth (lt_of c))
    /\ run_op fmt "Q" [PScal s; PScal t] = ret (truth (eq_of c))
    /\ run_op fmt "GT" [PScal s; PScal t] = ret (truth (gt_of c))
    /\ run_op fmt "LE" [PScal s; PScal t] = ret (truth (negb (gt_of c)))
    /\ run_op fmt "GE" [PScal s; PScal t] = ret (truth (negb (lt_of c)))
    /\ run_op fmt "NE" [PScal s; PScal t] = ret (truth (negb (eq_of c)))
    /\ (c = Lt <-> lex_lt s t) /\ (c = Eq <-> s = t) /\ (c = Gt <-> lex_lt t s)).
Proof.
  intros fmt s t. exists (str_compare s t).
  assert (Heq : str_eqb s t = eq_of (str_compare s t)).
  { destruct (str_compare s t) eqn:E; cbn [eq_of].
    - apply str_compare_eq in E. subst. apply str_eqb_refl.
    - destruct (str_eqb s t) eqn:E'; [|reflexivity]. apply str_eqb_eq in E'.
      apply str_compare_eq in E'. congruence.
    - destruct (str_eqb s t) eqn:E'; [|reflexivity]. apply str_eqb_eq in E'.
      apply str_compare_eq in E'. congruence. }
  split; [|split; [|split; [|split; [|split; [|split; [|split; [|split]]]]]]].
  - run_plain. unfold op_STRLESS, cmp_fuel. rewrite b2_truth. reflexivity.
  - run_plain. unfold op_STREQUAL, cmp_fuel. rewrite b2_truth.
    cbn [pdepth Nat.add str_equal]. rewrite Heq. reflexivity.
  - run_plain. unfold op_STRGREATER, cmp_fuel. rewrite b2_truth. reflexivity.
  - run_plain. unfold op_STRLESSEQ. rewrite b2_truth.
    destruct (str_compare s t); reflexivity.
  - run_plain. unfold op_STRGREATEREQ. rewrite b2_truth.
    destruct (str_compare s t); reflexivity.
  - run_plain. unfold op_STRNOTEQUAL, cmp_fuel. rewrite b2_truth.
    cbn [pdepth Nat.add str_notequal]. rewrite Heq. reflexivity.
  - apply str_compare_lex.
  - apply str_compare_eq.
  - rewrite <- str_compare_lex, str_compare_antisym.
    destruct (str_compare t s); cbn; split; congruence.
Qed.

Lemma lex_lt_trans : forall s t u, lex_lt s t -> lex_lt t u -> lex_lt s u.
Proof.
  intros s t u. rewrite <- !str_compare_lex. apply str_compare_trans.
Qed.

(** ** C12: truth *)

Lemma forallb_repeat : forall (c : N) (u : list N), forallb (N.eqb c) u = true ->
  u = repeat c (length u).
Proof.
  intros c. induction u as [|d u IH]; intro H; [reflexivity|].
  cbn [forallb] in H. apply andb_prop in H. destruct H as [H1 H2].
  apply N.eqb_eq in H1. subst d. cbn [length repeat]. f_equal. auto.
Qed.
Lemma repeat_forallb : forall c n, forallb (N.eqb c) (repeat c n) = true.
Proof. intros c. induction n; [reflexivity|]. cbn. rewrite N.eqb_refl. exact IHn. Qed.

Lemma zero_lang : forall s t,
  lang zero_re s t <-> (t = [] \/ t = [c_nl]) /\ exists z, s = z ++ t /\ zero_form z.
Proof.
  intros s t. unfold zero_re.
  rewrite lang_seq. split.
  - intros (s' & H & He). apply lang_eol in He. destruct He as [-> Ht].
    split; [exact Ht|].
    apply lang_alt in H. destruct H as [H|H].
    + apply lang_seq in H. destruct H as (s1 & H1 & H2).
      apply lang_plus_cls in H1. destruct H1 as (u & Hne & -> & Hu).
      apply forallb_repeat in Hu.
      assert (Hl : (1 <= length u)%nat) by (destruct u; [congruence|simpl; lia]).
      apply lang_opt in H2. destruct H2 as [->|H2].
      * exists u. split; [reflexivity|]. exists (length u), O. left. auto.
      * apply lang_seq in H2. destruct H2 as (s2 & H2 & H3).
        apply lang_char in H2. subst s1.
        apply lang_star_cls in H3. destruct H3 as (v & -> & Hv).
        apply forallb_repeat in Hv.
        exists (u ++ [46%N] ++ v). split; [rewrite <- !app_assoc; reflexivity|].
        exists (length u), (length v). right. split; [exact (f_equal2 (fun x y => x ++ [46%N] ++ y) Hu Hv)|lia].
    + apply lang_seq in H. destruct H as (s1 & H1 & H2).
      apply lang_star_cls in H1. destruct H1 as (u & -> & Hu).
      apply forallb_repeat in Hu.
      apply lang_seq in H2. destruct H2 as (s2 & H2 & H3).
      apply lang_char in H2. subst s1.
      apply lang_plus_cls in H3. destruct H3 as (v & Hne & -> & Hv).
      apply forallb_repeat in Hv.
      assert (Hl : (1 <= length v)%nat) by (destruct v; [congruence|simpl; lia]).
      exists (u ++ [46%N] ++ v). split; [rewrite <- !app_assoc; reflexivity|].
      exists (length u), (length v). right. split; [exact (f_equal2 (fun x y => x ++ [46%N] ++ y) Hu Hv)|lia].
  - intros [Ht (z & -> & (a & b & H))].
    exists t. split; [|apply lang_eol; auto].
    apply lang_alt. destruct H as [[-> Ha]|[-> Hab]].
    + left. apply lang_seq. exists t. split; [|apply lang_opt; auto].
      apply lang_plus_cls. exists (repeat 48%N a).
      split; [destruct a; [lia|discriminate]|]. split; [reflexivity|].
      apply repeat_forallb.
    + destruct a as [|a].
      * right. apply lang_seq. exists ((46%N :: repeat 48%N b) ++ t).
        split; [apply lang_star_cls; exists []; auto|].
        apply lang_seq. exists (repeat 48%N b ++ t).
        split; [apply lang_char; reflexivity|].
        apply lang_plus_cls. exists (repeat 48%N b).
        split; [destruct b; [lia|discriminate]|]. split; [reflexivity|].
        apply repeat_forallb.
      * left. apply lang_seq. exists ((46%N :: repeat 48%N b) ++ t). split.
        -- apply lang_plus_cls. exists (repeat 48%N (S a)).
           split; [discriminate|]. split; [rewrite <- app_assoc; reflexivity|].
           apply repeat_forallb.
        -- apply lang_opt. right. apply lang_seq. exists (repeat 48%N b ++ t).
           split; [apply lang_char; reflexivity|].
           apply lang_star_cls. exists (repeat 48%N b). split; [reflexivity|].
           apply repeat_forallb.
Qed.

Lemma scalar_bool_false : forall s,
  scalar_bool s = false
  <-> s = [] \/ zero_form s \/ exists z, s = z ++ [10%N] /\ zero_form z.
Proof.
  intro s. unfold scalar_bool.
  pose proof (match_re_some zero_re s) as H.
  assert (Hz : (exists t, lang zero_re s t)
               <-> zero_form s \/ exists z, s = z ++ [10%N] /\ zero_form z).
  { split.
    - intros [t Ht]. apply zero_lang in Ht. destruct Ht as [[->| ->] (z & E & Hz)].
      + rewrite app_nil_r in E. subst. auto.
      + right. exists z. auto.
    - intros [Hz|(z & -> & Hz)].
      + exists []. apply zero_lang. split; [auto|]. exists s.
        split; [symmetry; apply app_nil_r|exact Hz].
      + exists [10%N]. apply zero_lang. split; [auto|]. exists z. auto. }
  rewrite <- Hz, <- H. destruct s as [|c s]; cbn [negb andb].
  - split; auto.
  - destruct (match_re zero_re (c :: s)); split; intro X; auto.
    + right. discriminate.
    + discriminate.
    + destruct X as [X|X]; [discriminate X|elim X; reflexivity].
Qed.

Lemma not_truth : forall fmt s,
  exists b, run_op fmt "!" [PScal s] = ret (truth (negb b))
    /\ (b = false <-> s = [] \/ zero_form s \/ exists z, s = z ++ [10%N] /\ zero_form z).
Proof.
  intros fmt s. exists (scalar_bool s). split; [|apply scalar_bool_false].
  run_plain. unfold op_NOT. cbn. destruct (scalar_bool s); reflexivity.
Qed.

Lemma zero_form_numeral : forall z, scalar_bool (str_of_Z z) = negb (z =? 0).
Proof.
  intro z. destruct (str_of_Z_numeral z) as (ds & [Hne Hd] & Hs & Hv & Hh).
  destruct (Z.eqb_spec z 0) as [->|Hz]; [reflexivity|]. cbn [negb].
  destruct (scalar_bool (str_of_Z z)) eqn:E; [reflexivity|exfalso].
  apply scalar_bool_false in E. rewrite Hs in E.
  destruct ds as [|d ds]; [congruence|].
  assert (Hd0 : d <> 0%N).
  { intros ->. specialize (Hh eq_refl). injection Hh as ->.
    apply Hz. rewrite <- Hv. unfold numeral_value. cbn. destruct (z <? 0); reflexivity. }
  assert (Hd10 : (d < 10)%N) by (inversion Hd; assumption).
  assert (Hfirst : forall (c : N) (r w : list N), zero_form w -> w = c :: r -> c = 48%N \/ c = 46%N).
  { intros c r w (a & b & [[-> Ha]|[-> Hab]]) Ew.
    - destruct a; [lia|]. cbn in Ew. left. congruence.
    - destruct a; cbn in Ew; [right|left]; congruence. }
  unfold numeral in E. destruct (z <? 0); cbn [app map] in E.
  - change (s_ "-") with [45%N] in E. cbn [app] in E.
    destruct E as [E|[E|(w & E & Hw)]]; [discriminate| |].
    + destruct (Hfirst _ _ _ E eq_refl); discriminate.
    + destruct w as [|c w]; [destruct Hw as (a & b & [[Ha Hb]|[Ha Hb]]);
        destruct a; try discriminate; lia|].
      cbn [app] in E. injection E as <- E.
      destruct (Hfirst _ _ _ Hw eq_refl); discriminate.
  - destruct E as [E|[E|(w & E & Hw)]]; [discriminate| |].
    + destruct (Hfirst _ _ _ E eq_refl) as [X|X]; lia.
    + destruct w as [|c w]; [destruct Hw as (a & b & [[Ha Hb]|[Ha Hb]]);
        destruct a; try discriminate; lia|].
      assert (Hc : c = (48 + d)%N) by (cbn [app] in E; congruence).
      destruct (Hfirst _ _ _ Hw eq_refl) as [X|X]; rewrite Hc in X; lia.
Qed.

Lemma not_int : forall fmt z,
  run_op fmt "!" [scal_Z z] = ret (truth (z =? 0)).
Proof.
  intros fmt z. run_plain. unfold op_NOT, scal_Z. cbn [p_bool].
  rewrite zero_form_numeral. destruct (z =? 0); reflexivity.
Qed.

(** ** C55: integer conversion *)

(** The operators that need an integer see the integer part. *)
Lemma int_of_fraction : forall neg ds fs, decimal ds ->
  scalar_int (with_fraction neg ds fs) = numeral_value neg ds.
Proof. intros. apply scalar_int_numeral; [assumption|reflexivity]. Qed.

Lemma index_by_fraction : forall fmt text v neg ds fs, decimal ds ->
  In text ["@"; "@<"; "@>"; "H"; "S"; "RL"] -> not_block v = true ->
  run_op fmt text [v; PScal (with_fraction neg ds fs)]
  = run_op fmt text [v; scal_Z (numeral_value neg ds)].
Proof.
  intros fmt text v neg ds fs H Ht Hv.
  pose proof (int_of_fraction neg ds fs H) as E.
  assert (Ib : is_block v = false) by (destruct v; [| | | |discriminate Hv|]; reflexivity).
  Ltac both v Ib := run_plain;
    [run_plain; [|rewrite ?Ib; reflexivity|destruct v; reflexivity]
    |rewrite ?Ib; reflexivity|destruct v; reflexivity].
  destruct Ht as [<-|[<-|[<-|[<-|[<-|[<-|[]]]]]]]; both v Ib;
    unfold op_AT, op_LEFTOF, op_RIGHTOF, op_PREFIX, op_SUFFIX, op_REPEATLIST,
      or_default, scal_Z;
    cbn [at_val sliced]; rewrite scalar_int_str, E; reflexivity.
Qed.

Lemma count_by_fraction : forall fmt s n a n' a' fs fs', decimal a -> decimal a' ->
  run_op fmt "," [PScal (with_fraction n a fs); PScal (with_fraction n' a' fs')]
  = ret (PRange (Some (numeral_value n a)) (Some (numeral_value n' a')))
  /\ run_op fmt "," [PScal (with_fraction n a fs)]
     = run_op fmt "," [scal_Z (numeral_value n a)]
  /\ run_op fmt "X" [PScal s; PScal (with_fraction n a fs)]
     = run_op fmt "X" [PScal s; scal_Z (numeral_value n a)].
Proof.
  intros fmt s n a n' a' fs fs' H H'.
  pose proof (int_of_fraction n a fs H) as E.
  pose proof (int_of_fraction n' a' fs' H') as E'. split; [|split].
  - run_plain. unfold op_RANGE. cbn [bound_of]. rewrite E, E'. reflexivity.
  - run_plain. run_plain. unfold op_RANGETO, scal_Z. cbn [bound_of].
    rewrite scalar_int_str, E. reflexivity.
  - run_plain. run_plain. unfold op_STRMUL, scal_Z.
    rewrite scalar_int_str, E. reflexivity.
Qed.
