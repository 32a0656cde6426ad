(** * Lemmas on strings *)

From Coq Require Import String List NArith ZArith Bool Arith Lia.
From Verif Require Import PyStr Spec.
Import ListNotations.

Lemma str_eqb_refl : forall s, str_eqb s s = true.
Proof. induction s; simpl; [reflexivity|]. rewrite N.eqb_refl. exact IHs. Qed.

Lemma str_eqb_eq : forall a b, str_eqb a b = true <-> a = b.
Proof.
  induction a as [|x a IH]; intros [|y b]; simpl; split; intro H;
    try reflexivity; try discriminate.
  - apply andb_true_iff in H. destruct H as [H1 H2].
    apply N.eqb_eq in H1. apply IH in H2. congruence.
  - injection H as -> ->. rewrite N.eqb_refl. apply IH. reflexivity.
Qed.

Lemma str_eqb_sym : forall a b, str_eqb a b = str_eqb b a.
Proof.
  intros a b. apply eq_true_iff_eq. rewrite !str_eqb_eq. split; congruence.
Qed.

(** ** Lexicographic order *)

Lemma str_compare_eq : forall a b, str_compare a b = Eq <-> a = b.
Proof.
  induction a as [|x a IH]; intros [|y b]; simpl; split; intro H;
    try reflexivity; try discriminate.
  - destruct (N.compare_spec x y); try discriminate. apply IH in H. congruence.
  - injection H as -> ->. rewrite N.compare_refl. apply IH. reflexivity.
Qed.

Lemma str_compare_antisym : forall a b, str_compare b a = CompOpp (str_compare a b).
Proof.
  induction a as [|x a IH]; intros [|y b]; simpl; try reflexivity.
  rewrite (N.compare_antisym x y). destruct (N.compare x y); simpl; auto.
Qed.

Lemma str_compare_trans : forall a b c,
  str_compare a b = Lt -> str_compare b c = Lt -> str_compare a c = Lt.
Proof.
  induction a as [|x a IH]; intros [|y b] [|z c]; simpl; intros H1 H2;
    try reflexivity; try discriminate.
  destruct (N.compare_spec x y) as [->|L|L]; try discriminate.
  - destruct (N.compare_spec y z) as [->|L'|L']; try discriminate; [|reflexivity].
    eapply IH; eassumption.
  - destruct (N.compare_spec y z) as [->|L'|L']; try discriminate.
    + rewrite (proj2 (N.compare_lt_iff x z) L). reflexivity.
    + rewrite (proj2 (N.compare_lt_iff x z) (N.lt_trans _ _ _ L L')). reflexivity.
Qed.

(** ** Prefixes and occurrences *)

Lemma startswith_spec : forall p s,
  startswith p s = true <-> exists t, s = p ++ t.
Proof.
  induction p as [|x p IH]; intros s; simpl.
  - split; [exists s; reflexivity|reflexivity].
  - destruct s as [|y s].
    + split; [discriminate|]. intros [t H]. discriminate.
    + rewrite andb_true_iff, N.eqb_eq, IH. split.
      * intros [-> [t ->]]. exists t. reflexivity.
      * intros [t H]. injection H as -> ->. split; [reflexivity|eauto].
Qed.

Lemma startswith_app : forall p t, startswith p (p ++ t) = true.
Proof. intros. apply startswith_spec. eauto. Qed.

Lemma occurs_at_0 : forall sub s, occurs_at sub s 0 <-> startswith sub s = true.
Proof.
  intros sub s. rewrite startswith_spec. split.
  - intros ([|? a] & b & -> & L); [exists b; reflexivity|discriminate].
  - intros [t ->]. exists [], t. auto.
Qed.

Lemma occurs_at_S : forall sub c s i,
  occurs_at sub (c :: s) (S i) <-> occurs_at sub s i.
Proof.
  intros. split.
  - intros ([|x a] & b & E & L); [discriminate|]. injection E as -> ->.
    injection L as <-. exists a, b. auto.
  - intros (a & b & -> & <-). exists (c :: a), b. auto.
Qed.

Lemma occurs_at_nil_S : forall sub i, ~ occurs_at sub [] (S i).
Proof. intros sub i ([|? ?] & b & E & L); discriminate. Qed.

Lemma str_find_spec : forall sub s,
  match str_find sub s with
  | Some n => occurs_at sub s n /\ forall i, i < n -> ~ occurs_at sub s i
  | None => forall i, ~ occurs_at sub s i
  end.
Proof.
  intros sub. induction s as [|c s IH].
  - cbn [str_find]. destruct (startswith sub []) eqn:E.
    + split; [apply occurs_at_0, E|intros; lia].
    + intros [|i]; [rewrite occurs_at_0; congruence|apply occurs_at_nil_S].
  - cbn [str_find]. destruct (startswith sub (c :: s)) eqn:E.
    + split; [apply occurs_at_0, E|intros; lia].
    + destruct (str_find sub s) as [n|]; cbn [option_map].
      * destruct IH as [IH1 IH2]. split; [apply occurs_at_S, IH1|].
        intros [|i] Hi; [rewrite occurs_at_0; congruence|].
        rewrite occurs_at_S. apply IH2. lia.
      * intros [|i]; [rewrite occurs_at_0; congruence|].
        rewrite occurs_at_S. apply IH.
Qed.

Lemma str_find_some : forall sub s i, occurs_at sub s i ->
  exists n, str_find sub s = Some n /\ n <= i.
Proof.
  intros sub s i H. pose proof (str_find_spec sub s) as F.
  destruct (str_find sub s) as [n|].
  - exists n. split; [reflexivity|]. destruct F as [_ F].
    destruct (Nat.le_gt_cases n i); [assumption|]. exfalso. eapply F; eassumption.
  - exfalso. eapply F, H.
Qed.

Lemma occurs_at_bound : forall sub s i, occurs_at sub s i ->
  i + length sub <= length s.
Proof.
  intros sub s i (a & b & -> & <-). rewrite !app_length. lia.
Qed.

Lemma occurs_at_skipn : forall sub s k i, k <= length s ->
  occurs_at sub (skipn k s) i <-> occurs_at sub s (k + i).
Proof.
  intros sub s k. revert s. induction k as [|k IH]; intros s i Hk; simpl.
  - reflexivity.
  - destruct s as [|c s]; simpl in Hk; [lia|].
    rewrite occurs_at_S. apply IH. lia.
Qed.
