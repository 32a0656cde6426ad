(** * Proofs for sorting, minimum and maximum *)

From Coq Require Import String List NArith ZArith Bool Arith Lia Sorted Permutation.
From Verif Require Import PyStr PyRe PyNum Tokens OpFun OpTable Unparse PTypes
                          Ops OpsSeq Apply StrFacts NumFacts NumCmp Spec SpecRun SpecList
                          PFacts RunOp SeqProof SeqProof2 NumProof2.
Import ListNotations.
Local Open Scope string_scope.
Local Open Scope list_scope.
Local Open Scope Z_scope.

(** ** Insertion sort on numbered items *)

Section Stable.
  Context {A : Type}.
  Variable lt : A -> A -> bool.
  Variable P : A -> Prop.
  Hypothesis lt_trans : forall a b c, P a -> P b -> P c ->
    lt a b = true -> lt b c = true -> lt a c = true.
  Hypothesis lt_negtrans : forall a b c, P a -> P b -> P c ->
    lt a b = false -> lt b c = false -> lt a c = false.
  Variable T : nat -> nat -> Prop.

  Let lt' (a b : nat * A) : bool := lt (snd a) (snd b).
  Let R (a b : nat * A) : Prop :=
    lt' a b = true \/ lt' b a = false /\ T (fst a) (fst b).

  Lemma sinsert_perm : forall (B : Type) (f : B -> B -> bool) x l,
    Permutation (sinsert f x l) (x :: l).
  Proof.
    intros B f x l. induction l as [|y l IH]; simpl; [reflexivity|].
    destruct (f y x); [|reflexivity].
    rewrite IH. apply perm_swap.
  Qed.

  Lemma stable_sort_perm : forall (B : Type) (f : B -> B -> bool) l,
    Permutation (stable_sort f l) l.
  Proof.
    intros B f l. induction l as [|x l IH]; simpl; [reflexivity|].
    rewrite sinsert_perm. constructor. exact IH.
  Qed.

  Lemma sinsert_sorted : forall x l, P (snd x) ->
    Forall (fun y => P (snd y)) l -> Forall (fun y => T (fst x) (fst y)) l ->
    StronglySorted R l -> StronglySorted R (sinsert lt' x l).
  Proof.
    intros x l Px. induction l as [|y l IH]; intros HP HT HS; simpl.
    - repeat constructor.
    - inversion HP as [|? ? Py Pl]; subst. inversion HT as [|? ? Ty Tl]; subst.
      inversion HS as [|? ? Sl Fy]; subst.
      destruct (lt' y x) eqn:E.
      + constructor; [apply IH; assumption|].
        rewrite (sinsert_perm _ lt' x l). constructor; [left; exact E|exact Fy].
      + constructor; [exact HS|]. constructor; [right; auto|].
        rewrite Forall_forall in *. intros z Hz. right.
        split; [|apply Tl, Hz]. unfold lt' in *. destruct (Fy z Hz) as [L|[L _]].
        * destruct (lt (snd z) (snd x)) eqn:E2; [|reflexivity].
          unfold lt' in L.
          rewrite (lt_trans (snd y) (snd z) (snd x)) in E; auto.
        * unfold lt' in L. apply (lt_negtrans _ (snd y)); auto.
  Qed.

  Lemma stable_sort_sorted : forall l,
    Forall (fun y => P (snd y)) l ->
    StronglySorted (fun a b => T (fst a) (fst b)) l ->
    StronglySorted R (stable_sort lt' l).
  Proof.
    induction l as [|x l IH]; intros HP HT; [constructor|].
    inversion HP; subst. inversion HT; subst.
    change (stable_sort lt' (x :: l)) with (sinsert lt' x (stable_sort lt' l)).
    apply sinsert_sorted; auto;
      rewrite (stable_sort_perm _ lt' l); assumption.
  Qed.
End Stable.

Lemma sinsert_map : forall {A B} (f : B -> A) (lt : A -> A -> bool) x l,
  map f (sinsert (fun a b => lt (f a) (f b)) x l) = sinsert lt (f x) (map f l).
Proof.
  intros A B f lt x l. induction l as [|y l IH]; simpl; [reflexivity|].
  destruct (lt (f y) (f x)); simpl; [rewrite IH|]; reflexivity.
Qed.
Lemma stable_sort_map : forall {A B} (f : B -> A) (lt : A -> A -> bool) l,
  map f (stable_sort (fun a b => lt (f a) (f b)) l) = stable_sort lt (map f l).
Proof.
  intros A B f lt l. induction l as [|x l IH]; simpl; [reflexivity|].
  rewrite sinsert_map, IH. reflexivity.
Qed.

Definition numbered {A} (l : list A) : list (nat * A) := combine (seq 0 (length l)) l.

Lemma combine_snd : forall {A B} (a : list A) (b : list B),
  length a = length b -> map snd (combine a b) = b.
Proof.
  induction a as [|x a IH]; intros [|y b] H; try discriminate; simpl; [reflexivity|].
  rewrite IH; [reflexivity|]. simpl in H. lia.
Qed.

Lemma numbered_sorted : forall {A} (l : list A) k,
  StronglySorted (fun a b : nat * A => (fst a < fst b)%nat)
                 (combine (seq k (length l)) l).
Proof.
  intros A l. induction l as [|x l IH]; intro k; simpl; [constructor|].
  constructor; [apply IH|]. apply Forall_forall. intros [i y] H. simpl.
  apply in_combine_l, in_seq in H. lia.
Qed.

Lemma sorted_snoc : forall {A} (R : A -> A -> Prop) l x,
  StronglySorted R l -> Forall (fun y => R y x) l -> StronglySorted R (l ++ [x]).
Proof.
  intros A R l x. induction l as [|y l IH]; intros S F; simpl.
  - repeat constructor.
  - inversion S; subst. inversion F; subst. constructor; [auto|].
    apply Forall_app. auto.
Qed.
Lemma sorted_rev : forall {A} (R : A -> A -> Prop) l,
  StronglySorted R l -> StronglySorted (fun a b => R b a) (rev l).
Proof.
  intros A R l. induction l as [|x l IH]; intro S; simpl; [constructor|].
  inversion S; subst. apply sorted_snoc; [auto|].
  rewrite <- Permutation_rev. assumption.
Qed.
Lemma sorted_impl : forall {A} (R R' : A -> A -> Prop) l,
  (forall a b, In a l -> In b l -> R a b -> R' a b) ->
  StronglySorted R l -> StronglySorted R' l.
Proof.
  intros A R R' l H S. induction S as [|x l S IH F]; [constructor|].
  constructor.
  - apply IH. intros. apply H; simpl; auto.
  - rewrite Forall_forall in *. intros y Hy. apply H; simpl; auto.
Qed.

(** The two sorts are stable. *)
Section Result.
  Context {A : Type}.
  Variable lt : A -> A -> bool.
  Variable l : list A.
  Hypothesis lt_trans : forall a b c, In a l -> In b l -> In c l ->
    lt a b = true -> lt b c = true -> lt a c = true.
  Hypothesis lt_negtrans : forall a b c, In a l -> In b l -> In c l ->
    lt a b = false -> lt b c = false -> lt a c = false.

  Lemma numbered_in : forall x, In x (numbered l) -> In (snd x) l.
  Proof. intros [i y] H. eapply in_combine_r, H. Qed.

  Lemma stable_sort_ok : stably_sorted (fun a b => lt a b = true) l (stable_sort lt l).
  Proof.
    exists (stable_sort (fun a b => lt (snd a) (snd b)) (numbered l)).
    split; [apply stable_sort_perm|]. split.
    - eapply sorted_impl;
        [|apply (stable_sort_sorted lt (fun a => In a l) lt_trans lt_negtrans
                                    (fun i j => (i < j)%nat))].
      + intros a b _ _ [H|[H1 H2]]; [left; exact H|right].
        split; [congruence|exact H2].
      + apply Forall_forall. exact numbered_in.
      + apply numbered_sorted.
    - rewrite stable_sort_map. f_equal. apply combine_snd, seq_length.
  Qed.

  Lemma stable_sort_desc_ok :
    stably_sorted (fun a b => lt b a = true) l (stable_sort_desc lt l).
  Proof.
    exists (rev (stable_sort (fun a b => lt (snd a) (snd b)) (rev (numbered l)))).
    split; [|split].
    - rewrite <- Permutation_rev, stable_sort_perm. symmetry. apply Permutation_rev.
    - eapply sorted_impl;
        [|apply sorted_rev, (stable_sort_sorted lt (fun a => In a l) lt_trans lt_negtrans
                                    (fun i j => (j < i)%nat))].
      + intros a b _ _ [H|[H1 H2]]; [left; exact H|right].
        split; [congruence|exact H2].
      + apply Forall_forall. intros x Hx. apply in_rev in Hx. apply numbered_in, Hx.
      + apply (sorted_rev _ (numbered l)), numbered_sorted.
    - rewrite map_rev, stable_sort_map, map_rev.
      unfold numbered. rewrite combine_snd by apply seq_length. reflexivity.
  Qed.
End Result.

(** Sorting decorated items. *)
Lemma stably_sorted_map : forall {A B} (f : A -> B) (before : A -> A -> Prop)
    (before' : B -> B -> Prop) l r,
  (forall a b, In a l -> In b l -> (before a b <-> before' (f a) (f b))) ->
  stably_sorted before l r -> stably_sorted before' (map f l) (map f r).
Proof.
  intros A B f before before' l r H (ps & HP & HS & <-).
  exists (map (fun p => (fst p, f (snd p))) ps). split; [|split].
  - rewrite map_length.
    replace (combine (seq 0 (length l)) (map f l))
      with (map (fun p : nat * A => (fst p, f (snd p))) (combine (seq 0 (length l)) l)).
    + apply Permutation_map, HP.
    + generalize 0%nat. clear. induction l as [|x l IH]; intro k; simpl; [reflexivity|].
      rewrite IH. reflexivity.
  - assert (I : forall p, In p ps -> In (snd p) l).
    { intros [i y] Hp. apply (Permutation_in _ HP) in Hp. eapply in_combine_r, Hp. }
    clear HP. induction HS as [|p ps S IH F]; simpl; [constructor|].
    constructor.
    + apply IH. intros; apply I; simpl; auto.
    + apply Forall_forall. intros q Hq. apply in_map_iff in Hq.
      destruct Hq as (q' & <- & Hq). simpl.
      rewrite Forall_forall in F. specialize (F q' Hq).
      rewrite <- (H (snd p) (snd q')), <- (H (snd q') (snd p))
        by (apply I; simpl; auto). exact F.
  - rewrite !map_map. reflexivity.
Qed.

(** ** Order on keys *)

Section KeyInd.
  Variable Q : key -> Prop.
  Hypothesis Hnum : forall n, Q (KNum n).
  Hypothesis Hlist : forall l, Forall Q l -> Q (KList l).
  Fixpoint key_list_ind (k : key) : Q k :=
    match k with
    | KNum n => Hnum n
    | KList l => Hlist l ((fix go (l : list key) : Forall Q l :=
                             match l with
                             | [] => Forall_nil Q
                             | x :: l' => Forall_cons x (key_list_ind x) (go l')
                             end) l)
    end.
End KeyInd.

Fixpoint keys_eqb (l1 l2 : list key) : bool :=
  match l1, l2 with
  | [], [] => true
  | x :: l1', y :: l2' => key_eqb x y && keys_eqb l1' l2'
  | _, _ => false
  end.
Fixpoint keys_ltb (l1 l2 : list key) : option bool :=
  match l1, l2 with
  | [], [] => Some false
  | [], _ :: _ => Some true
  | _ :: _, [] => Some false
  | x :: l1', y :: l2' => if key_eqb x y then keys_ltb l1' l2' else key_ltb x y
  end.
Lemma key_eqb_list : forall l l', key_eqb (KList l) (KList l') = keys_eqb l l'.
Proof.
  reflexivity.
Qed.
Lemma key_ltb_list : forall l l', key_ltb (KList l) (KList l') = keys_ltb l l'.
Proof.
  reflexivity.
Qed.

Lemma num_eqb_compare : forall x y, num_eqb x y = true <-> num_compare x y = Some Eq.
Proof.
  intros x y. unfold num_eqb. destruct (num_compare x y) as [[]|]; split; congruence.
Qed.
Lemma num_ltb_compare : forall x y, num_ltb x y = true <-> num_compare x y = Some Lt.
Proof.
  intros x y. unfold num_ltb. destruct (num_compare x y) as [[]|]; split; congruence.
Qed.

Lemma key_eqb_same : forall a b, key_eqb a b = true <-> key_same a b.
Proof.
  induction a as [x|l IH] using key_list_ind; intros [y|l'].
  - cbn [key_eqb]. rewrite num_eqb_compare. split; [constructor; assumption|].
    intro H. inversion H. assumption.
  - split; [discriminate|intro H; inversion H].
  - split; [discriminate|intro H; inversion H].
  - rewrite key_eqb_list.
    assert (E : keys_eqb l l' = true <-> Forall2 key_same l l').
    { revert l'. induction IH as [|x l Hx _ IHl]; intros [|y l']; simpl;
        try (split; [discriminate|intro H; inversion H; fail]).
      - split; constructor.
      - rewrite andb_true_iff, Hx, IHl. split.
        + intros [? ?]. constructor; assumption.
        + intro H. inversion H; auto. }
    rewrite E. split; [constructor; assumption|intro H; inversion H; assumption].
Qed.

Lemma keys_ltb_prefix : forall p p' l l', Forall2 key_same p p' ->
  keys_ltb (p ++ l) (p' ++ l') = keys_ltb l l'.
Proof.
  intros p p' l l' H. induction H as [|x y p p' Hxy _ IH]; simpl; [reflexivity|].
  apply key_eqb_same in Hxy. rewrite Hxy. exact IH.
Qed.

Lemma num_lt_not_eq : forall x y, num_compare x y = Some Lt -> num_eqb x y = false.
Proof. intros x y H. unfold num_eqb. rewrite H. reflexivity. Qed.

Lemma key_before_not_same : forall a b, key_before a b -> key_eqb a b = false.
Proof.
  intros a b H. induction H as [x y H|p p' y l' H|p p' x y l l' H _ IH].
  - apply num_lt_not_eq, H.
  - rewrite key_eqb_list. induction H as [|a b p p' Hab _ IH]; [reflexivity|].
    simpl. rewrite IH. apply andb_false_r.
  - rewrite key_eqb_list. induction H as [|a b p p' Hab _ IH']; simpl.
    + rewrite IH. reflexivity.
    + rewrite IH'. apply andb_false_r.
Qed.

Lemma key_ltb_before : forall a b, key_ltb a b = Some true <-> key_before a b.
Proof.
  intros a b. split.
  - revert b. induction a as [x|l IH] using key_list_ind; intros [y|l'] H;
      try discriminate.
    + cbn [key_ltb] in H. constructor. apply num_ltb_compare. congruence.
    + rewrite key_ltb_list in H.
      assert (E : exists p p' m m', l = p ++ m /\ l' = p' ++ m' /\ Forall2 key_same p p'
                  /\ ((m = [] /\ m' <> [])
                      \/ exists x y t t', m = x :: t /\ m' = y :: t' /\ key_before x y)).
      { revert l' H. induction IH as [|x l Hx _ IHl]; intros [|y l'] H; simpl in H;
          try discriminate.
        - exists [], [], [], (y :: l'). repeat split; auto. left. split; [reflexivity|discriminate].
        - destruct (key_eqb x y) eqn:E.
          + destruct (IHl l' H) as (p & p' & m & m' & -> & -> & F & C).
            exists (x :: p), (y :: p'), m, m'. repeat split; auto.
            constructor; [apply key_eqb_same, E|exact F].
          + exists [], [], (x :: l), (y :: l'). repeat split; auto.
            right. exists x, y, l, l'. auto. }
      destruct E as (p & p' & m & m' & -> & -> & F & [[-> Hm]|(x & y & t & t' & -> & -> & B)]).
      * destruct m' as [|y m']; [contradiction|]. rewrite app_nil_r. constructor. exact F.
      * constructor; assumption.
  - intro H. induction H as [x y H|p p' y l' H|p p' x y l l' H B IH].
    + cbn [key_ltb]. f_equal. apply num_ltb_compare, H.
    + rewrite key_ltb_list. rewrite <- (app_nil_r p), keys_ltb_prefix by exact H.
      reflexivity.
    + rewrite key_ltb_list, keys_ltb_prefix by exact H. cbn [keys_ltb].
      rewrite (key_before_not_same _ _ B). exact IH.
Qed.

(** Keys without NaN. *)
Fixpoint good (k : key) : bool :=
  match k with
  | KNum n => negb (num_is_nan n)
  | KList l => forallb good l
  end.

Lemma forallb_map : forall {A B} (f : B -> bool) (g : A -> B) l,
  forallb f (map g l) = forallb (fun x => f (g x)) l.
Proof. intros A B f g l. induction l; simpl; congruence. Qed.

Lemma p_to_number_good : forall v, good (p_to_number v) = true.
Proof.
  induction v as [s|r f|l IH|lo hi|sts r|] using pval_list_ind; try reflexivity.
  - cbn. rewrite to_number_not_nan. reflexivity.
  - cbn. rewrite forallb_map. apply forallb_forall. rewrite Forall_forall in IH. exact IH.
  - destruct hi; [|reflexivity]. cbn. rewrite forallb_map. apply forallb_forall.
    intros; reflexivity.
Qed.

Lemma num_le_of : forall x y,
  num_leb x y = true <-> num_compare x y = Some Lt \/ num_compare x y = Some Eq.
Proof.
  intros x y. unfold num_leb. destruct (num_compare x y) as [[]|];
    split; try (intros [|]); try discriminate; auto.
Qed.

Lemma num_same_sym : forall x y, num_compare x y = Some Eq -> num_compare y x = Some Eq.
Proof. intros x y H. rewrite num_compare_sym, H. reflexivity. Qed.

Lemma num_same_trans : forall x y z, num_compare x y = Some Eq ->
  num_compare y z = Some Eq -> num_compare x z = Some Eq.
Proof.
  intros x y z H1 H2.
  assert (L : num_leb x z = true)
    by (apply (num_le_trans x y z); apply num_le_of; auto).
  assert (G : num_leb z x = true)
    by (apply (num_le_trans z y x); apply num_le_of; right; apply num_same_sym; auto).
  apply num_le_of in L. destruct L as [L|L]; [|exact L].
  apply num_le_of in G. rewrite num_compare_sym, L in G. simpl in G.
  destruct G; discriminate.
Qed.

Lemma num_same_lt : forall x y z, num_compare x y = Some Eq ->
  num_compare y z = Some Lt -> num_compare x z = Some Lt.
Proof.
  intros x y z H1 H2. apply num_ltb_compare, (num_le_lt_trans x y z);
    [apply num_le_of; auto|apply num_ltb_compare, H2].
Qed.
Lemma num_lt_same : forall x y z, num_compare x y = Some Lt ->
  num_compare y z = Some Eq -> num_compare x z = Some Lt.
Proof.
  intros x y z H1 H2. apply num_ltb_compare, (num_lt_le_trans x y z);
    [apply num_ltb_compare, H1|apply num_le_of; auto].
Qed.
Lemma num_lt_lt : forall x y z, num_compare x y = Some Lt ->
  num_compare y z = Some Lt -> num_compare x z = Some Lt.
Proof.
  intros x y z H1 H2. apply num_ltb_compare, (num_lt_le_trans x y z);
    [apply num_ltb_compare, H1|apply num_le_of; auto].
Qed.

Lemma key_same_sym : forall a b, key_same a b -> key_same b a.
Proof.
  induction a as [x|l IH] using key_list_ind; intros b H; inversion H; subst.
  - constructor. apply num_same_sym. assumption.
  - constructor. clear H. revert l' H1. induction IH as [|x l Hx _ IHl]; intros l' H;
      inversion H; subst; constructor; auto.
Qed.

Lemma key_same_trans : forall a b c, key_same a b -> key_same b c -> key_same a c.
Proof.
  induction a as [x|l IH] using key_list_ind; intros b c H1 H2;
    inversion H1; subst; inversion H2; subst.
  - constructor. eapply num_same_trans; eassumption.
  - constructor. rename l' into l1, l'0 into l2. clear H1 H2.
    revert l1 l2 H0 H3. induction IH as [|x l Hx _ IHl]; intros l1 l2 A B;
      inversion A; subst; inversion B; subst; constructor; eauto.
Qed.

(** Three-way comparison of keys, as a function of the two relations. *)
Lemma key_trans_all : forall a b c,
  (key_same a b -> key_before b c -> key_before a c)
  /\ (key_before a b -> key_same b c -> key_before a c)
  /\ (key_before a b -> key_before b c -> key_before a c).
Proof.
  induction a as [x|l IH] using key_list_ind; intros [y|l1] [z|l2];
    repeat split; intros H1 H2; try (inversion H1; fail); try (inversion H2; fail).
  - inversion H1; subst; inversion H2; subst. constructor. eapply num_same_lt; eassumption.
  - inversion H1; subst; inversion H2; subst. constructor. eapply num_lt_same; eassumption.
  - inversion H1; subst; inversion H2; subst. constructor. eapply num_lt_lt; eassumption.
  - apply key_eqb_same in H1. apply key_ltb_before in H2. apply key_ltb_before.
    rewrite key_eqb_list in H1. rewrite key_ltb_list in *.
    revert l1 l2 H1 H2. induction IH as [|x l Hx _ IHl]; intros [|y l1] [|z l2];
      simpl; intros H1 H2; try discriminate; try reflexivity.
    apply andb_true_iff in H1. destruct H1 as [E1 E2].
    apply key_eqb_same in E1.
    destruct (key_eqb y z) eqn:E.
    + apply key_eqb_same in E. pose proof (key_same_trans _ _ _ E1 E) as E'.
      apply key_eqb_same in E'. rewrite E'. eapply IHl; eassumption.
    + destruct (key_eqb x z) eqn:E'.
      * apply key_eqb_same in E'.
        pose proof (key_same_trans _ _ _ (key_same_sym _ _ E1) E') as E3.
        apply key_eqb_same in E3. congruence.
      * apply key_ltb_before. apply key_ltb_before in H2. exact (proj1 (Hx y z) E1 H2).
  - apply key_eqb_same in H2. apply key_ltb_before in H1. apply key_ltb_before.
    rewrite key_eqb_list in H2. rewrite key_ltb_list in *.
    revert l1 l2 H1 H2. induction IH as [|x l Hx _ IHl]; intros [|y l1] [|z l2];
      simpl; intros H1 H2; try discriminate; try reflexivity.
    apply andb_true_iff in H2. destruct H2 as [E1 E2].
    apply key_eqb_same in E1.
    destruct (key_eqb x y) eqn:E.
    + apply key_eqb_same in E. pose proof (key_same_trans _ _ _ E E1) as E'.
      apply key_eqb_same in E'. rewrite E'. eapply IHl; eassumption.
    + destruct (key_eqb x z) eqn:E'.
      * apply key_eqb_same in E'.
        pose proof (key_same_trans _ _ _ E' (key_same_sym _ _ E1)) as E3.
        apply key_eqb_same in E3. congruence.
      * apply key_ltb_before. apply key_ltb_before in H1. exact (proj1 (proj2 (Hx y z)) H1 E1).
  - apply key_ltb_before in H1. apply key_ltb_before in H2. apply key_ltb_before.
    rewrite key_ltb_list in *.
    revert l1 l2 H1 H2. induction IH as [|x l Hx _ IHl]; intros [|y l1] [|z l2];
      simpl; intros H1 H2; try discriminate; try reflexivity.
    destruct (key_eqb x y) eqn:E1.
    + apply key_eqb_same in E1. destruct (key_eqb y z) eqn:E2.
      * apply key_eqb_same in E2. pose proof (key_same_trans _ _ _ E1 E2) as E'.
        apply key_eqb_same in E'. rewrite E'. eapply IHl; eassumption.
      * apply key_ltb_before in H2.
        assert (B : key_before x z) by (exact (proj1 (Hx y z) E1 H2)).
        rewrite (key_before_not_same _ _ B). apply key_ltb_before, B.
    + apply key_ltb_before in H1. destruct (key_eqb y z) eqn:E2.
      * apply key_eqb_same in E2.
        assert (B : key_before x z) by (exact (proj1 (proj2 (Hx y z)) H1 E2)).
        rewrite (key_before_not_same _ _ B). apply key_ltb_before, B.
      * apply key_ltb_before in H2.
        assert (B : key_before x z) by (exact (proj2 (proj2 (Hx y z)) H1 H2)).
        rewrite (key_before_not_same _ _ B). apply key_ltb_before, B.
Qed.

Lemma key_ltb_false : forall a b, good a = true -> good b = true ->
  key_ltb a b = Some false -> key_same a b \/ key_before b a.
Proof.
  induction a as [x|l IH] using key_list_ind; intros [y|l'] Ga Gb H; try discriminate.
  - cbn in *. apply negb_true_iff in Ga, Gb.
    destruct (num_compare_some x y Ga Gb) as [c E].
    unfold num_ltb in H. rewrite E in H. destruct c; try discriminate.
    + left. constructor. exact E.
    + right. constructor. rewrite num_compare_sym, E. reflexivity.
  - rewrite key_ltb_list in H.
    assert (G : keys_eqb l l' = true \/ keys_ltb l' l = Some true).
    { cbn [good] in Ga, Gb. revert l' Gb H. induction IH as [|x l Hx _ IHl];
        intros [|y l'] Gb H; simpl in *; try discriminate; auto.
      apply andb_true_iff in Ga, Gb. destruct Ga as [Gx Gl], Gb as [Gy Gl'].
      destruct (key_eqb x y) eqn:E.
      - apply key_eqb_same, key_same_sym, key_eqb_same in E. rewrite E.
        simpl. apply (IHl Gl); assumption.
      - destruct (Hx y Gx Gy H) as [S|B].
        + apply key_eqb_same in S. congruence.
        + right. rewrite (key_before_not_same _ _ B). apply key_ltb_before, B. }
    destruct G as [G|G].
    + left. apply key_eqb_same. rewrite key_eqb_list. exact G.
    + right. apply key_ltb_before. rewrite key_ltb_list. exact G.
Qed.

Lemma key_lt_before : forall a b, key_lt a b = true <-> key_before a b.
Proof.
  intros a b. rewrite <- key_ltb_before. unfold key_lt.
  destruct (key_ltb a b) as [[]|]; split; congruence.
Qed.

Lemma key_ltb_refl : forall a, good a = true -> key_ltb a a = Some false.
Proof.
  induction a as [x|l IH] using key_list_ind; intro G.
  - cbn in *. unfold num_ltb. destruct (num_compare x x) as [c|] eqn:E; [|reflexivity].
    destruct c; try reflexivity. pose proof (num_compare_sym x x) as S.
    rewrite E in S. discriminate.
  - rewrite key_ltb_list. cbn [good] in G. induction IH as [|x l Hx _ IHl]; [reflexivity|].
    simpl in *. apply andb_true_iff in G. destruct G as [Gx Gl].
    destruct (key_eqb x x); auto.
Qed.

Lemma key_ltb_none_sym : forall a b, good a = true -> good b = true ->
  key_ltb a b = None -> key_ltb b a = None.
Proof.
  intros a b Ga Gb H. destruct (key_ltb b a) as [[]|] eqn:E; [| |reflexivity].
  - exfalso. revert b Gb H E. induction a as [x|l IH] using key_list_ind;
      intros [y|l'] Gb H E; try discriminate.
    rewrite key_ltb_list in *. cbn [good] in Ga, Gb. revert l' Gb H E.
    induction IH as [|x l Hx _ IHl]; intros [|y l'] Gb H E; simpl in *; try discriminate.
    apply andb_true_iff in Ga, Gb. destruct Ga as [Gx Gl], Gb as [Gy Gl'].
    destruct (key_eqb x y) eqn:E1.
    + apply key_eqb_same, key_same_sym, key_eqb_same in E1. rewrite E1 in E. eauto.
    + destruct (key_eqb y x) eqn:E2.
      * apply key_eqb_same, key_same_sym, key_eqb_same in E2. congruence.
      * eauto.
  - exfalso. destruct (key_ltb_false b a Gb Ga E) as [S|B].
    + apply key_same_sym in S.
      revert b Gb H E S. induction a as [x|l IH] using key_list_ind;
        intros [y|l'] Gb H E S; try discriminate.
      apply key_eqb_same in S. rewrite key_eqb_list in S.
      rewrite key_ltb_list in H. clear - S H. revert l' S H.
      induction l as [|x l IHl]; intros [|y l'] S H; simpl in *; try discriminate.
      apply andb_true_iff in S. destruct S as [S1 S2]. rewrite S1 in H. eauto.
    + apply key_ltb_before in B. congruence.
Qed.

Lemma all_comparable_in : forall ks, Forall (fun k => good k = true) ks ->
  (all_comparable ks = true
   <-> forall a b, In a ks -> In b ks -> key_ltb a b <> None).
Proof.
  intros ks G. induction G as [|k ks Gk G IH]; simpl.
  - split; [intros _ a b []|reflexivity].
  - rewrite andb_true_iff, forallb_forall, IH. rewrite Forall_forall in G. split.
    + intros [H1 H2] a b [<-|Ha] [<-|Hb].
      * rewrite key_ltb_refl by exact Gk. discriminate.
      * specialize (H1 b Hb). destruct (key_ltb k b); congruence.
      * specialize (H1 a Ha). intro E. apply key_ltb_none_sym in E; auto.
        rewrite E in H1. discriminate.
      * apply H2; assumption.
    + intro H. split.
      * intros b Hb. specialize (H k b (or_introl eq_refl) (or_intror Hb)).
        destruct (key_ltb k b); congruence.
      * intros a b Ha Hb. apply H; auto.
Qed.

Lemma key_lt_trans : forall a b c, key_lt a b = true -> key_lt b c = true ->
  key_lt a c = true.
Proof.
  intros a b c. rewrite !key_lt_before. intros. eapply (proj2 (proj2 (key_trans_all a b c))); assumption.
Qed.

Lemma key_lt_negtrans : forall a b c,
  good a = true -> good b = true -> good c = true ->
  key_ltb a b <> None -> key_ltb b c <> None ->
  key_lt a b = false -> key_lt b c = false -> key_lt a c = false.
Proof.
  intros a b c Ga Gb Gc N1 N2 H1 H2. destruct (key_lt a c) eqn:E; [|reflexivity].
  exfalso. apply key_lt_before in E.
  assert (F1 : key_ltb a b = Some false).
  { unfold key_lt in H1. destruct (key_ltb a b) as [[]|]; congruence. }
  assert (F2 : key_ltb b c = Some false).
  { unfold key_lt in H2. destruct (key_ltb b c) as [[]|]; congruence. }
  apply key_ltb_false in F1; auto. apply key_ltb_false in F2; auto.
  assert (B : key_before a b).
  { destruct F2 as [S|B]; [apply (proj1 (proj2 (key_trans_all a c b)) E), key_same_sym, S|].
    eapply (proj2 (proj2 (key_trans_all a c b))); eassumption. }
  apply key_ltb_before in B. unfold key_lt in H1. rewrite B in H1. discriminate.
Qed.

(** ** C16 *)

Lemma sorted_by_spec : forall desc l,
  Forall (fun k => good (fst k) = true) l ->
  match sorted_by desc l with
  | Some r => (forall a b, In a (map fst l) -> In b (map fst l) -> key_ltb a b <> None)
      /\ exists r', map snd r' = r
        /\ stably_sorted (fun x y => if desc then key_before (fst y) (fst x)
                                     else key_before (fst x) (fst y)) l r'
  | None => exists a b, In a (map fst l) /\ In b (map fst l) /\ key_ltb a b = None
  end.
Proof.
  intros desc l G. unfold sorted_by.
  assert (G' : Forall (fun k => good k = true) (map fst l)).
  { apply Forall_map. exact G. }
  destruct (all_comparable (map fst l)) eqn:E.
  - pose proof (proj1 (all_comparable_in _ G') E) as C. split; [exact C|].
    eexists. split; [reflexivity|].
    rewrite Forall_forall in G.
    assert (T : forall a b c : key * pval, In a l -> In b l -> In c l ->
      key_lt (fst a) (fst b) = true -> key_lt (fst b) (fst c) = true ->
      key_lt (fst a) (fst c) = true) by (intros; eapply key_lt_trans; eassumption).
    assert (N : forall a b c : key * pval, In a l -> In b l -> In c l ->
      key_lt (fst a) (fst b) = false -> key_lt (fst b) (fst c) = false ->
      key_lt (fst a) (fst c) = false).
    { intros a b c Ha Hb Hc. apply key_lt_negtrans; auto; apply C; apply in_map; auto. }
    assert (W : forall (R R' : key * pval -> key * pval -> Prop) r,
      (forall a b, R a b <-> R' a b) -> stably_sorted R l r -> stably_sorted R' l r).
    { intros R R' r H S. rewrite <- (map_id l), <- (map_id r).
      eapply stably_sorted_map; [|exact S]. intros. apply H. }
    destruct desc.
    + eapply W; [|apply stable_sort_desc_ok with (lt := fun a b => key_lt (fst a) (fst b));
                  assumption].
      intros. apply key_lt_before.
    + eapply W; [|apply stable_sort_ok with (lt := fun a b => key_lt (fst a) (fst b));
                  assumption].
      intros. apply key_lt_before.
  - clear - E. revert E. generalize (map fst l). intro ks.
    induction ks as [|k ks IH]; simpl; [discriminate|].
    intro E. apply andb_false_iff in E. destruct E as [E|E].
    + assert (Y : exists b, In b ks /\ key_ltb k b = None).
      { clear IH. induction ks as [|b ks IH]; [discriminate|]. simpl in E.
        apply andb_false_iff in E. destruct E as [E|E].
        - exists b. split; [left; reflexivity|]. destruct (key_ltb k b); congruence.
        - destruct (IH E) as (b' & I & N). exists b'. split; [right; exact I|exact N]. }
      destruct Y as (b & I & N). exists k, b. auto.
    + destruct (IH E) as (a & b & Ia & Ib & N). exists a, b. auto.
Qed.

Lemma key_ltb_none : forall a b, good a = true -> good b = true -> key_ltb a b = None ->
  ~ key_same a b /\ ~ key_before a b /\ ~ key_before b a.
Proof.
  intros a b Ga Gb H. split; [|split].
  - clear Ga Gb. revert b H. induction a as [x|l IH] using key_list_ind;
      intros [y|l'] H S; try discriminate; try (inversion S; fail).
    apply key_eqb_same in S. rewrite key_eqb_list in S.
    rewrite key_ltb_list in H. clear - S H. revert l' S H.
    induction l as [|x l IHl]; intros [|y l'] S H; simpl in *; try discriminate.
    apply andb_true_iff in S. destruct S as [S1 S2]. rewrite S1 in H. eauto.
  - intro B. apply key_ltb_before in B. congruence.
  - intro B. apply key_ltb_none_sym in H; auto. apply key_ltb_before in B. congruence.
Qed.

Lemma stably_sorted_iff : forall {A} (R R' : A -> A -> Prop) l r,
  (forall a b, In a l -> In b l -> (R a b <-> R' a b)) ->
  stably_sorted R l r -> stably_sorted R' l r.
Proof.
  intros A R R' l r H S. rewrite <- (map_id l), <- (map_id r).
  eapply stably_sorted_map; [|exact S]. intros. apply H; assumption.
Qed.

Lemma sort_num_spec : forall w desc v l, elems v l ->
  (exists ws x y, op_sort_num w desc v = (ws, Val PNil) /\ In x l /\ In y l
     /\ ~ number_same x y /\ ~ number_before x y /\ ~ number_before y x)
  \/ exists ws r, op_sort_num w desc v = (ws, Val (PList r))
       /\ ws = key_warnings w l
       /\ (forall a b, In a l -> In b l -> key_ltb (p_to_number a) (p_to_number b) <> None)
       /\ stably_sorted (directed desc number_before) l r.
Proof.
  intros w desc v l H. unfold op_sort_num.
  rewrite (elems_iterable _ _ H), (p_list_elems _ _ H), bind_lift_val.
  set (kl := map (fun v => (p_to_number v, v)) l).
  assert (G : Forall (fun k => good (fst k) = true) kl).
  { apply Forall_map, Forall_forall. intros; apply p_to_number_good. }
  assert (K : map fst kl = map p_to_number l) by (unfold kl; rewrite map_map; reflexivity).
  pose proof (sorted_by_spec desc kl G) as S. rewrite K in S.
  destruct (sorted_by desc kl) as [r|].
  - destruct S as (C & r' & <- & S). right. exists (key_warnings w l), (map snd r').
    split; [unfold bind, ret; rewrite app_nil_r; reflexivity|]. split; [reflexivity|].
    split; [intros; apply C; apply in_map; assumption|].
    replace l with (map (@snd key pval) kl) by (unfold kl; rewrite map_map; apply map_id).
    eapply stably_sorted_map; [|exact S].
    intros [ka a] [kb b] Ha Hb. apply in_map_iff in Ha, Hb.
    destruct Ha as (a' & Ea & _), Hb as (b' & Eb & _). inversion Ea; inversion Eb; subst.
    unfold directed, number_before. simpl. destruct desc; reflexivity.
  - destruct S as (a & b & Ia & Ib & N). apply in_map_iff in Ia, Ib.
    destruct Ia as (x & <- & Ix), Ib as (y & <- & Iy). left.
    apply key_ltb_none in N; try apply p_to_number_good.
    eexists _, x, y. split; [reflexivity|].
    unfold number_same, number_before. tauto.
Qed.

Definition descending (text : string) : bool :=
  String.eqb text "DN" || String.eqb text "DS".

Lemma elems_expand : forall fl v l, elems v l ->
  f_list_each fl = false -> f_range_each fl = false -> expands fl v = false.
Proof. intros fl v l H H1 H2. destruct H; simpl; auto. Qed.

Lemma run_sort_num : forall fmt text v l, In text ["SN"; "DN"] -> elems v l ->
  (exists ws x y, run_op fmt text [v] = (ws, Val PNil) /\ In x l /\ In y l
     /\ ~ number_same x y /\ ~ number_before x y /\ ~ number_before y x)
  \/ exists ws r, run_op fmt text [v] = (ws, Val (PList r))
       /\ stably_sorted (directed (String.eqb text "DN") number_before) l r.
Proof.
  intros fmt text v l Ht H.
  assert (E : exists w, run_op fmt text [v] = op_sort_num w (String.eqb text "DN") v).
  { pose proof (elems_not_block _ _ H) as Ib.
    destruct Ht as [<-|[<-|[]]]; eexists;
      (run_plain; [reflexivity | rewrite Ib; reflexivity | destruct v; reflexivity]). }
  destruct E as [w E]. rewrite E.
  destruct (sort_num_spec w (String.eqb text "DN") v l H)
    as [?|(ws & r & E' & _ & _ & S)]; [left; assumption|right].
  exists ws, r. auto.
Qed.

Lemma scalar_key : forall fmt x y, scalar x -> scalar y ->
  (number_before x y <-> holds fmt "<" x y).
Proof.
  intros fmt [s| | | | |] [t| | | | |] Hx Hy; try contradiction.
  destruct (num_compare_some _ _ (to_number_not_nan s) (to_number_not_nan t)) as [c E].
  destruct (compares_compare fmt s t c E) as [L _]. unfold holds. rewrite L.
  unfold number_before. cbn [p_to_number]. split; intro H.
  - inversion H; subst. replace c with Lt by congruence. reflexivity.
  - constructor. rewrite E. destruct c; [discriminate H|reflexivity|discriminate H].
Qed.

Lemma run_sort_scalars : forall fmt text v l, In text ["SN"; "DN"] -> elems v l ->
  Forall scalar l ->
  exists r, run_op fmt text [v] = ret (PList r)
    /\ stably_sorted (directed (String.eqb text "DN") (holds fmt "<")) l r.
Proof.
  intros fmt text v l Ht H F.
  assert (E : exists w, run_op fmt text [v] = op_sort_num w (String.eqb text "DN") v).
  { pose proof (elems_not_block _ _ H) as Ib.
    destruct Ht as [<-|[<-|[]]]; eexists;
      (run_plain; [reflexivity | rewrite Ib; reflexivity | destruct v; reflexivity]). }
  destruct E as [w E]. rewrite E. rewrite Forall_forall in F.
  destruct (sort_num_spec w (String.eqb text "DN") v l H)
    as [(ws & x & y & _ & Ix & Iy & N1 & N2 & N3)|(ws & r & E' & W & _ & S)].
  - exfalso. apply F in Ix, Iy. destruct x as [s| | | | |], y as [t| | | | |];
      try contradiction.
    destruct (num_compare_some _ _ (to_number_not_nan s) (to_number_not_nan t)) as [c Ec].
    destruct c.
    + apply N1. constructor. exact Ec.
    + apply N2. constructor. exact Ec.
    + apply N3. constructor. rewrite num_compare_sym, Ec. reflexivity.
  - exists r. rewrite E'. split.
    + unfold ret. f_equal. rewrite W. clear - F. unfold key_warnings.
      induction l as [|x l IH]; [reflexivity|]. simpl. rewrite IH by (intros; apply F; simpl; auto).
      specialize (F x (or_introl eq_refl)). destruct x; try contradiction. reflexivity.
    + eapply stably_sorted_iff; [|exact S]. intros a b Ha Hb. apply F in Ha, Hb.
      unfold directed. destruct (String.eqb text "DN"); apply scalar_key; assumption.
Qed.

(** Strings. *)

Lemma str_ltb_lex : forall s t, str_ltb s t = true <-> lex_lt s t.
Proof.
  intros s t. unfold str_ltb. rewrite <- str_compare_lex.
  destruct (str_compare s t); split; congruence.
Qed.

Lemma str_ltb_trans : forall a b c, str_ltb a b = true -> str_ltb b c = true ->
  str_ltb a c = true.
Proof. intros a b c. rewrite !str_ltb_lex. apply lex_lt_trans. Qed.

Lemma str_ltb_negtrans : forall a b c, str_ltb a b = false -> str_ltb b c = false ->
  str_ltb a c = false.
Proof.
  intros a b c. unfold str_ltb.
  pose proof (str_compare_antisym a b) as S1. pose proof (str_compare_antisym b c) as S2.
  destruct (str_compare a b) eqn:E1; try discriminate; intros _;
  destruct (str_compare b c) eqn:E2; try discriminate; intros _; simpl in *.
  - apply str_compare_eq in E1, E2. subst. destruct (str_compare c c) eqn:E; auto.
    pose proof (str_compare_antisym c c) as A. rewrite E in A. discriminate.
  - apply str_compare_eq in E1. subst. rewrite E2. reflexivity.
  - apply str_compare_eq in E2. subst. rewrite E1. reflexivity.
  - rewrite (str_compare_antisym c a). rewrite (str_compare_trans c b a); auto.
Qed.

Lemma run_sort_str : forall fmt text v l, In text ["SS"; "DS"] -> elems v l ->
  exists r, stably_sorted (directed (String.eqb text "DS")
                             (fun x y => lex_lt (p_str fmt x) (p_str fmt y))) l r
    /\ run_op fmt text [v]
       = ret (match v with PScal _ => PScal (p_str FmtNone (PList r)) | _ => PList r end).
Proof.
  intros fmt text v l Ht H.
  assert (E : exists w, run_op fmt text [v] = op_sort_str w (String.eqb text "DS") fmt v).
  { pose proof (elems_not_block _ _ H) as Ib.
    destruct Ht as [<-|[<-|[]]]; eexists;
      (run_plain; [reflexivity | rewrite Ib; reflexivity | destruct v; reflexivity]). }
  destruct E as [w E]. rewrite E. clear E Ht. generalize (String.eqb text "DS"). intro desc.
  assert (L : forall l : list pval,
    stably_sorted (directed desc (fun x y => lex_lt (p_str fmt x) (p_str fmt y))) l
      (map snd ((if desc then stable_sort_desc else stable_sort)
                  (fun a b => str_ltb (fst a) (fst b)) (map (fun x => (p_str fmt x, x)) l)))).
  { clear. intro l. set (kl := map (fun x => (p_str fmt x, x)) l).
    assert (S : stably_sorted (fun a b : str * pval =>
                   directed desc (fun x y => str_ltb (fst x) (fst y) = true) a b) kl
                  ((if desc then stable_sort_desc else stable_sort)
                  (fun a b => str_ltb (fst a) (fst b)) kl)).
    { destruct desc; [apply stable_sort_desc_ok with (lt := fun a b => str_ltb (fst a) (fst b))
                     |apply stable_sort_ok with (lt := fun a b => str_ltb (fst a) (fst b))];
        intros ? ? ? _ _ _; [apply str_ltb_trans|apply str_ltb_negtrans
                            |apply str_ltb_trans|apply str_ltb_negtrans]. }
    assert (M : map (@snd str pval) kl = l) by (unfold kl; rewrite map_map; apply map_id).
    refine (eq_ind _ (fun q => stably_sorted _ q _) _ _ M).
    eapply stably_sorted_map; [|exact S].
    intros [ka a] [kb b] Ha Hb. apply in_map_iff in Ha, Hb.
    destruct Ha as (a' & Ea & _), Hb as (b' & Eb & _). injection Ea as <- <-. injection Eb as <- <-.
    unfold directed. simpl. destruct desc; apply str_ltb_lex. }
  destruct v as [s| |l0|lo hi| |]; try (inversion H; fail).
  - inversion H; subst. cbn [op_sort_str].
    set (f := fun c : char => PScal [c]).
    exists (map f ((if desc then stable_sort_desc else stable_sort) N.ltb s)). split.
    + assert (S : stably_sorted (directed desc (fun a b => N.ltb a b = true)) s
                  ((if desc then stable_sort_desc else stable_sort) N.ltb s)).
      { destruct desc; [apply stable_sort_desc_ok|apply stable_sort_ok];
          intros a b c _ _ _; rewrite ?N.ltb_lt, ?N.ltb_ge; intros; lia. }
      eapply stably_sorted_map; [|exact S]. intros a b _ _.
      assert (C : forall a b : char, lex_lt [a] [b] <-> N.ltb a b = true).
      { intros x y. rewrite N.ltb_lt. split; intro X.
        - inversion X as [|? ? ? ? Y|? ? ? Y]; subst; [exact Y|inversion Y].
        - apply lex_here, X. }
      unfold directed. destruct desc; symmetry; apply C.
    + f_equal. f_equal. unfold f. cbn [p_str]. rewrite map_map. cbn [p_str str_nonlist].
      generalize ((if desc then stable_sort_desc else stable_sort) N.ltb s).
      intro u. induction u as [|c u IH]; [reflexivity|]. simpl. rewrite <- IH. reflexivity.
  - inversion H; subst. eexists. split; [apply L|]. reflexivity.
  - eexists. split; [apply L|].
    cbn [op_sort_str]. rewrite (p_list_elems _ _ H), bind_lift_val. reflexivity.
Qed.

(** ** C17 *)

Lemma best_scalars : forall (better : key -> key -> option bool) (up : bool) x l,
  (forall s t, better (KNum (to_number s)) (KNum (to_number t))
     = Some (if up then num_ltb (to_number t) (to_number s)
             else num_ltb (to_number s) (to_number t))) ->
  scalar x -> Forall scalar l ->
  exists r, best_from better x l = Some r /\ In r (x :: l)
    /\ forall y, In y (x :: l) ->
         match r, y with
         | PScal s, PScal t => if up then num_leb (to_number t) (to_number s) = true
                               else num_leb (to_number s) (to_number t) = true
         | _, _ => False
         end.
Proof.
  intros better up x l Hb Hx F. revert x Hx. induction F as [|y l Hy F IH]; intros x Hx; simpl.
  - exists x. split; [reflexivity|]. split; [auto|]. intros y [<-|[]].
    destruct x as [s| | | | |]; try contradiction.
    assert (R : num_leb (to_number s) (to_number s) = true).
    { destruct (num_compare_some _ _ (to_number_not_nan s) (to_number_not_nan s)) as [c E].
      unfold num_leb. rewrite E. destruct c; try reflexivity.
      pose proof (num_compare_sym (to_number s) (to_number s)) as A. rewrite E in A.
      discriminate. }
    destruct up; exact R.
  - destruct x as [s| | | | |]; try contradiction.
    destruct y as [t| | | | |]; try contradiction. cbn [p_to_number]. rewrite Hb.
    destruct (num_compare_some _ _ (to_number_not_nan s) (to_number_not_nan t)) as [c E].
    pose proof (num_compare_sym (to_number s) (to_number t)) as E'. rewrite E in E'.
    assert (C : (if up then num_ltb (to_number s) (to_number t)
             else num_ltb (to_number t) (to_number s))
             = (if up then lt_of c else gt_of c)).
    { unfold num_ltb. rewrite E, E'. destruct up, c; reflexivity. }
    rewrite C. destruct (if up then lt_of c else gt_of c) eqn:D.
    + destruct (IH (PScal t) I) as (r & Er & Ir & Br). exists r.
      split; [exact Er|]. split; [simpl in *; tauto|].
      intros y [<-|Hy']; [|exact (Br y Hy')].
      pose proof (Br (PScal t) (or_introl eq_refl)) as B.
      destruct r as [u| | | | |]; try contradiction.
      destruct up.
      * eapply num_le_trans; [|exact B]. unfold num_leb. rewrite E.
        destruct c; try discriminate. reflexivity.
      * eapply num_le_trans; [exact B|]. unfold num_leb. rewrite E'.
        destruct c; try discriminate. reflexivity.
    + destruct (IH (PScal s) I) as (r & Er & Ir & Br). exists r.
      split; [exact Er|]. split; [simpl in *; tauto|].
      intros y [<-|[<-|Hy']]; [exact (Br (PScal s) (or_introl eq_refl))| |exact (Br y (or_intror Hy'))].
      pose proof (Br (PScal s) (or_introl eq_refl)) as B.
      destruct r as [u| | | | |]; try contradiction.
      destruct up.
      * eapply num_le_trans; [|exact B]. unfold num_leb. rewrite E'.
        destruct c; try discriminate; reflexivity.
      * eapply num_le_trans; [exact B|]. unfold num_leb. rewrite E.
        destruct c; try discriminate; reflexivity.
Qed.

Lemma holds_le : forall fmt s t,
  num_leb (to_number s) (to_number t) = true -> holds fmt "<=" (PScal s) (PScal t)
  /\ holds fmt ">=" (PScal t) (PScal s).
Proof.
  intros fmt s t H.
  destruct (num_compare_some _ _ (to_number_not_nan s) (to_number_not_nan t)) as [c E].
  pose proof (num_compare_sym (to_number s) (to_number t)) as E'. rewrite E in E'.
  destruct (compares_compare fmt s t c E) as (_ & _ & _ & L & _).
  destruct (compares_compare fmt t s (CompOpp c) E') as (_ & _ & _ & _ & G & _).
  unfold holds. rewrite L, G. unfold num_leb in H. rewrite E in H.
  destruct c; try discriminate; split; reflexivity.
Qed.

Lemma extremum : forall fmt v l, elems v l -> l <> [] -> Forall scalar l ->
  (exists x, run_op fmt "MX" [v] = ret x /\ In x l
             /\ forall y, In y l -> holds fmt ">=" x y)
  /\ (exists x, run_op fmt "MN" [v] = ret x /\ In x l
             /\ forall y, In y l -> holds fmt "<=" x y).
Proof.
  intros fmt v l H Hne F. destruct l as [|x0 l]; [contradiction|].
  inversion F; subst. pose proof (elems_not_block _ _ H) as Ib. split.
  - destruct (best_scalars key_gtb true x0 l) as (r & Er & Ir & Br); auto.
    exists r. split; [|split; [exact Ir|]].
    + run_plain; [| rewrite Ib; reflexivity | destruct v; reflexivity].
      unfold op_MAX, op_best. rewrite (elems_iterable _ _ H), (elems_p_iter _ _ H), bind_lift_val, Er.
      reflexivity.
    + intros y Iy. specialize (Br y Iy). destruct r, y; try contradiction.
      apply holds_le, Br.
  - destruct (best_scalars key_ltb false x0 l) as (r & Er & Ir & Br); auto.
    exists r. split; [|split; [exact Ir|]].
    + run_plain; [| rewrite Ib; reflexivity | destruct v; reflexivity].
      unfold op_MIN, op_best. rewrite (elems_iterable _ _ H), (elems_p_iter _ _ H), bind_lift_val, Er.
      reflexivity.
    + intros y Iy. specialize (Br y Iy). destruct r, y; try contradiction.
      apply holds_le, Br.
Qed.

Lemma extremum_empty : forall fmt v, elems v [] ->
  (exists w, run_op fmt "MX" [v] = ([w], Val PNil))
  /\ (exists w, run_op fmt "MN" [v] = ([w], Val PNil)).
Proof.
  intros fmt v H. pose proof (elems_not_block _ _ H) as Ib. split; eexists.
  - run_plain; [| rewrite Ib; reflexivity | destruct v; reflexivity].
    unfold op_MAX, op_best. rewrite (elems_iterable _ _ H), (elems_p_iter _ _ H), bind_lift_val.
    reflexivity.
  - run_plain; [| rewrite Ib; reflexivity | destruct v; reflexivity].
    unfold op_MIN, op_best. rewrite (elems_iterable _ _ H), (elems_p_iter _ _ H), bind_lift_val.
    reflexivity.
Qed.
